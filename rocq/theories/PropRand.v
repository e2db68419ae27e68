(** PropRand.v - properties C155 and C156: random pictures and the command rand *)
From Coq Require Import Reals Lra Ascii String Lia ZifyBool ZifyNat.
From Verif Require Import Base ImageModel ImageFacts ImageProofs CliModel CliProofs CommandModel CommandProofs CubeModel FrameModel FrameProofs PropFrame PropCommand RandModel.
Open Scope nat_scope.

(** ** C155  rand and randi *)
(** [run draw g l g']: the next values that an engine in the state g gives are l, and then it is in the state g' *)
Inductive run {G A} (draw : G -> A * G) : G -> list A -> G -> Prop :=
| run_none g : run draw g [] g
| run_one g a g1 l g2 : draw g = (a, g1) -> run draw g1 l g2 -> run draw g (a :: l) g2.
Lemma run_app {G A} (draw : G -> A * G) g l g1 m g2 : run draw g l g1 -> run draw g1 m g2 -> run draw g (l ++ m) g2.
Proof. intros H; revert m g2; induction H; intros; cbn; [assumption|]; econstructor; eauto. Qed.
Lemma run_same {G A} (draw : G -> A * G) g l g1 : run draw g l g1 -> forall m g2, run draw g m g2 -> length l = length m -> l = m /\ g1 = g2.
Proof.
  induction 1 as [g | g a h l g1 E R IH]; intros m g2 R2 L; inversion R2 as [k | k b h' m' g3 E2 R3]; subst; try discriminate; auto.
  rewrite E in E2; injection E2 as <- <-; destruct (IH m' g2 R3) as [-> ->]; [cbn in L; lia | auto].
Qed.
Lemma run_produce {G A} (draw : G -> A * G) n : forall g, run draw g (produce draw n g) (advance G draw n g).
Proof. induction n as [|n IH]; intros g; cbn [produce advance]; [constructor|]; destruct (draw g) as [a g'] eqn:E; cbn [snd]; econstructor; eauto. Qed.
Lemma run_values {G A} (draw : G -> A * G) (P : A -> Prop) g l g' : (forall g, P (fst (draw g))) -> run draw g l g' -> Forall P l.
Proof. intros H; induction 1 as [| g a h l g1 E R IH]; constructor; auto; specialize (H g); rewrite E in H; exact H. Qed.
Lemma generate_ref_run {G A} (draw : G -> A * G) g sizes : 0 < prodn sizes -> (Z.of_nat (prodn sizes) < 2 ^ 31)%Z ->
  exists o g', generate_ref G draw g sizes = (Ok o, g') /\ dims o = sizes /\ length (pix o) = prodn sizes /\ run draw g (pix o) g'.
Proof.
  intros P B; destruct (C118_generate draw g sizes P B) as (o & E & R).
  exists o, (advance G draw (prodn sizes) g); unfold generate_ref, calls; rewrite E, reduce_int_ok by lia; rewrite Z.mul_1_l, Nat2Z.id; destruct R as (Dd & L & _).
  split; [reflexivity|]; split; [exact Dd|]; split; [exact L|].
  unfold generate in E; rewrite reduce_int_ok in E by lia; cbn [bind] in E; rewrite Z.mul_1_l, Nat2Z.id in E; destruct (Z.ltb_spec (Z.of_nat (prodn sizes)) 0); [lia|].
  pose proof (run_produce draw (prodn sizes) g) as R; destruct (produce draw (prodn sizes) g) as [|a l]; [discriminate|]; destruct (negb _); [discriminate|]; injection E as <-; exact R.
Qed.

(** the pixels are the next values of the engine in storage order, and the engine has given just these *)
Theorem C155_rand {G} (draw : G -> R * G) g sizes : (forall g, 0 <= fst (draw g) < 1)%R -> 0 < prodn sizes -> (Z.of_nat (prodn sizes) < 2 ^ 31)%Z ->
  exists o g', rand G draw g sizes = (Ok o, g') /\ dims o = sizes /\ length (pix o) = prodn sizes /\ run draw g (pix o) g' /\ Forall (fun x => 0 <= x < 1)%R (pix o).
Proof.
  intros H P B; destruct (generate_ref_run draw g sizes P B) as (o & g' & E & Dd & L & R); exists o, g'; repeat split; auto.
  exact (run_values draw (fun x => 0 <= x < 1)%R g (pix o) g' H R).
Qed.
Print Assumptions C155_rand.
(** without extents: one pixel, one column, one row, as with the extents 1, 1 *)
Theorem C155_rand1 {G} (draw : G -> R * G) g : rand1 G draw g = rand G draw g [1; 1].
Proof. 
  unfold rand1, rand, generate_ref, calls, generate; assert (C : reduce_int [1; 1] 1 = Ok 1%Z) by reflexivity; rewrite C; cbn [bind]; change (1 <? 0)%Z with false; change (Z.to_nat 1) with 1.
  cbn [produce advance]; destruct (draw g) as [v g']; reflexivity.
 Qed.
Print Assumptions C155_rand1.
(** two pictures from one engine are the pixels of one picture of as many *)
Theorem C155_consecutive {G} (draw : G -> R * G) g s1 s2 n : 0 < prodn s1 -> 0 < prodn s2 -> n = prodn s1 + prodn s2 -> (Z.of_nat n < 2 ^ 31)%Z ->
  exists o1 g1 o2 g2 o, rand G draw g s1 = (Ok o1, g1) /\ rand G draw g1 s2 = (Ok o2, g2) /\ rand G draw g [n] = (Ok o, g2) /\ pix o = pix o1 ++ pix o2.
Proof.
  intros P1 P2 -> B; destruct (generate_ref_run draw g s1 P1) as (o1 & g1 & E1 & _ & L1 & R1); [lia|].
  destruct (generate_ref_run draw g1 s2 P2) as (o2 & g2 & E2 & _ & L2 & R2); [lia|].
  assert (Q : prodn [prodn s1 + prodn s2] = prodn s1 + prodn s2) by (unfold prodn at 1; cbn [fold_right]; lia).
  destruct (generate_ref_run draw g [prodn s1 + prodn s2]) as (o & g3 & E3 & _ & L3 & R3); [lia | rewrite Q; exact B|].
  destruct (run_same draw g _ _ (run_app _ _ _ _ _ _ R1 R2) _ _ R3) as [Ep Eg]; [rewrite app_length; lia|].
  exists o1, g1, o2, g2, o; unfold rand; subst g3; auto.
Qed.
Print Assumptions C155_consecutive.
(** whole numbers: between the two limits; without extents a picture with one extent *)
Theorem C155_randi {G} (draw : Z -> Z -> G -> Z * G) g a b sizes : (forall a b g, a <= b -> a <= fst (draw a b g) <= b)%Z -> (a <= b)%Z -> 0 < prodn sizes -> (Z.of_nat (prodn sizes) < 2 ^ 31)%Z ->
  exists o g', randi G draw g a b sizes = (Ok o, g') /\ dims o = (match sizes with [] => [1] | _ => sizes end) /\ length (pix o) = prodn sizes
    /\ run (draw a b) g (pix o) g' /\ Forall (fun x => a <= x <= b)%Z (pix o).
Proof.
  intros H AB P B; unfold randi; destruct (Z.ltb_spec b a); [lia|].
  destruct (generate_ref_run (draw a b) g (match sizes with [] => [1] | _ => sizes end)) as (o & g' & E & Dd & L & R); [destruct sizes; [cbn; lia | exact P] | destruct sizes; [cbn; lia | exact B]|].
  exists o, g'; split; [exact E|]; split; [exact Dd|]; split; [rewrite L; destruct sizes; reflexivity|]; split; [exact R|].
  apply (run_values (draw a b) (fun x => a <= x <= b)%Z g (pix o) g'); [intros k; apply H, AB | exact R].
Qed.
Print Assumptions C155_randi.
Theorem C155_randi_max {G} (draw : Z -> Z -> G -> Z * G) g max sizes : (forall a b g, a <= b -> a <= fst (draw a b g) <= b)%Z -> (1 <= max)%Z -> 0 < prodn sizes -> (Z.of_nat (prodn sizes) < 2 ^ 31)%Z ->
  exists o g', randi_max G draw g max sizes = (Ok o, g') /\ length (pix o) = prodn sizes /\ Forall (fun x => 1 <= x <= max)%Z (pix o).
Proof. intros H M P B; destruct (C155_randi draw g 1 max sizes H M P B) as (o & g' & E & _ & L & _ & R); exists o, g'; auto. Qed.
Print Assumptions C155_randi_max.
(** limits in the wrong order *)
Theorem C155_limits_undefined {G} (draw : Z -> Z -> G -> Z * G) g a b sizes : (b < a)%Z -> fst (randi G draw g a b sizes) = UB.
Proof. intros H; unfold randi; destruct (Z.ltb_spec b a); [reflexivity | lia]. Qed.
Print Assumptions C155_limits_undefined.
(** negative extents are not refused *)
Theorem C155_negative_refuted {G} (draw : G -> R * G) g : exists a b o, (a < 0)%Z /\ (b < 0)%Z /\ fst (rand_ints G draw g [a; b]) = Ok o /\ length (pix o) < prodn (dims o).
Proof.
  set (n := wn (-1)); assert (Hn : Z.of_nat n = (2 ^ 64 - 1)%Z) by (unfold n, wn; rewrite Z2Nat.id by (unfold w64; apply Z.mod_pos_bound; reflexivity); reflexivity).
  exists (-1)%Z, (-1)%Z, (mkImage [n; n] [fst (draw g)]); split; [lia|]; split; [lia|]; unfold rand_ints, rand, generate_ref; cbn [map fst]; fold n; clearbody n.
  assert (E : prodn [n; n] = n * n) by (unfold prodn; cbn [fold_right]; lia); split; [|cbn [dims pix length]; rewrite E; nia].
  unfold generate; cbn [reduce_int bind fold_left]; rewrite Hn; change (to_int32 (w64 (w64 (to_int32 (w64 (w64 1 * (2 ^ 64 - 1)))) * (2 ^ 64 - 1)))) with 1%Z; change (1 <? 0)%Z with false; cbn [bind].
  change (Z.to_nat 1) with 1; cbn [produce]; destruct (draw g) as [v g']; cbn [length fst].
  assert (W : wn (Z.of_nat (prodn [n; n])) = 1) by (rewrite E; unfold wn, w64; rewrite Nat2Z.inj_mul, Hn; reflexivity); rewrite W; reflexivity.
Qed.
Print Assumptions C155_negative_refuted.
(** an engine that counts *)
Definition tick (g : nat) : R * nat := ((/ INR (g + 2))%R, g + 1).
Definition die (a b : Z) (g : nat) : Z * nat := ((a + Z.of_nat g mod (b - a + 1))%Z, g + 1).
Example C155_case : (forall g, 0 <= fst (tick g) < 1)%R /\ rand nat tick 0 [2; 1] = (Ok (mkImage [2; 1] [/ INR 2; / INR 3]%R), 2)
  /\ (forall a b g, a <= b -> a <= fst (die a b g) <= b)%Z /\ randi_max nat die 4 6 [1; 3] = (Ok (mkImage [1; 3] [5; 6; 1]%Z), 7) /\ randi_max nat die 4 6 [] = (Ok (mkImage [1] [5]%Z), 5).
Proof.
  split; [|split; [reflexivity|]; split; [|split; reflexivity]].
  - intros g; cbn [tick fst]; rewrite plus_INR; pose proof (pos_INR g); cbn; split; [apply Rlt_le, Rinv_0_lt_compat; lra | rewrite <- Rinv_1; apply Rinv_lt_contravar; lra].
  - intros a b g H; cbn [die fst]; pose proof (Z.mod_pos_bound (Z.of_nat g) (b - a + 1) ltac:(lia)); lia.
Qed.

(** ** C156  the command rand *)
Definition engines : list string := ["knuth_b"; "minstd_rand"; "minstd_rand0"; "mt19937"; "mt19937_64"; "ranlux24"; "ranlux24_base"; "ranlux48"; "ranlux48_base"]%string.
Lemma engine_known u : existsb (eqs u) urbg_names = true <-> exists e, In e engines /\ u = lit e.
Proof.
  rewrite existsb_exists; change urbg_names with (map lit engines); split.
  - intros (x & I & E); apply eqs_eq in E; subst x; apply in_map_iff in I as (e & <- & I); exists e; auto.
  - intros (e & I & ->); exists (lit e); split; [apply in_map, I | apply eqs_refl].
Qed.
Lemma parse_all_ok dims sizes : Forall2 (fun a n => parse_size a = Ok n) dims sizes -> mapM parse_size dims = Ok sizes.
Proof. induction 1 as [|a n l l' E _ IH]; [reflexivity|]; cbn [mapM]; rewrite E; cbn [bind]; rewrite IH; reflexivity. Qed.
Section Rand.
  Context {V F G : Type} (save_file : F -> str -> any V -> option F) (seed : str -> G) (draw : str -> G -> R * G) (of_image : image R -> any V).
  Notation cmd := (rand_command V F G save_file seed draw of_image).
  Lemma rand_makes engine output dims sizes (st : state V F) : In engine engines -> (forall e g, 0 <= fst (draw e g) < 1)%R ->
    dims <> [] -> Forall2 (fun a n => parse_size a = Ok n) dims sizes -> 0 < prodn sizes -> (Z.of_nat (prodn sizes) < 2 ^ 31)%Z ->
    exists o g', cmd (lit engine :: output :: dims) st = Ok (save_arg V F save_file st output (of_image o))
      /\ ImageModel.dims o = sizes /\ length (pix o) = prodn sizes /\ Forall (fun x => 0 <= x < 1)%R (pix o) /\ run (draw (lit engine)) (seed (lit engine)) (pix o) g'.
  Proof.
    intros I H N Fd P B; destruct (C155_rand (draw (lit engine)) (seed (lit engine)) sizes (H _) P B) as (o & g' & E & Dd & L & R & U).
    exists o, g'; split; [|auto]; destruct dims as [|a dims]; [congruence|]; unfold rand_command; rewrite (parse_all_ok (a :: dims) sizes Fd); cbn [bind].
    assert (K : existsb (eqs (lit engine)) urbg_names = true) by (apply engine_known; exists engine; auto); rewrite K.
    unfold rand, generate_ref in E; injection E as E _; rewrite E; reflexivity.
  Qed.
  Lemma rand_nothing args (st : state V F) :
    length args < 3 \/ (exists u o dims, args = u :: o :: dims /\ ((forall e, In e engines -> u <> lit e) \/ (exists a, In a dims /\ forall n, parse_size a <> Ok n))) -> cmd args st = Ok st.
  Proof.
    intros H; unfold rand_command; destruct args as [|u [|o [|a dims]]]; try reflexivity.
    destruct H as [H|(u' & o' & l & E & H)]; [cbn in H; lia|]; injection E as <- <- <-.
    assert (NU : mapM parse_size (a :: dims) <> UB).
    { clear; induction (a :: dims) as [|x l IH]; cbn [mapM]; [discriminate|].
      unfold parse_size at 1, parse_int; destruct (from_chars _ _ _); cbn [bind]; [|discriminate]; destruct (mapM parse_size l); cbn [bind]; congruence. }
    destruct (mapM parse_size (a :: dims)) as [sizes| |] eqn:E; cbn [bind caught]; try reflexivity; [|congruence].
    destruct H as [H|(x & I & H)].
    - destruct (existsb (eqs u) urbg_names) eqn:K; [|reflexivity]; apply engine_known in K as (e & I & ->); exfalso; apply (H e I); reflexivity.
    - exfalso; clear -E I H; revert sizes E; induction (a :: dims) as [|y l IH]; intros sizes E; [destruct I|]; cbn [mapM] in E.
      destruct (parse_size y) as [n| |] eqn:Ey; cbn [bind] in E; try discriminate; destruct (mapM parse_size l) as [ns| |]; cbn [bind] in E; try discriminate.
      destruct I as [-> | I]; [exact (H n Ey) | exact (IH I ns eq_refl)].
  Qed.
  Lemma rand_size_nothing u output dims sizes (st : state V F) : Forall2 (fun a n => parse_size a = Ok n) dims sizes -> fits (prodn sizes) ->
    prodn sizes = 0 \/ (2 ^ 31 <= Z.of_nat (prodn sizes))%Z -> length sizes < 4 -> cmd (u :: output :: dims) st = Ok st.
  Proof.
    intros Fd Fi H L; unfold rand_command; destruct dims as [|a dims]; [reflexivity|]; rewrite (parse_all_ok (a :: dims) sizes Fd); cbn [bind]; destruct (existsb _ _); [|reflexivity].
    destruct (C118_rejects (draw u) (seed u) sizes Fi H) as [-> | [-> | [Q _]]]; [reflexivity | reflexivity | lia].
  Qed.
End Rand.
(** with the exact name of an engine and sizes a picture of these extents is stored, with values in [0, 1) that are the next ones of the engine *)
Theorem C156_rand {V F G} save_file (seed : str -> G) draw (of_image : image R -> any V) engine output dims sizes (st : state V F) : In engine engines ->
  (forall e g, 0 <= fst (draw e g) < 1)%R -> dims <> [] -> Forall2 (fun a n => parse_size a = Ok n) dims sizes -> 0 < prodn sizes -> (Z.of_nat (prodn sizes) < 2 ^ 31)%Z ->
  exists o g', rand_command V F G save_file seed draw of_image (lit engine :: output :: dims) st = Ok (save_arg V F save_file st output (of_image o))
    /\ ImageModel.dims o = sizes /\ length (pix o) = prodn sizes /\ Forall (fun x => 0 <= x < 1)%R (pix o) /\ run (draw (lit engine)) (seed (lit engine)) (pix o) g'.
Proof. apply rand_makes. Qed.
Print Assumptions C156_rand.
(** too few arguments, another name, an argument that is no size *)
Theorem C156_nothing {V F G} save_file (seed : str -> G) draw (of_image : image R -> any V) args (st : state V F) :
  length args < 3 \/ (exists u o dims, args = u :: o :: dims /\ ((forall e, In e engines -> u <> lit e) \/ (exists a, In a dims /\ forall n, parse_size a <> Ok n))) ->
  rand_command V F G save_file seed draw of_image args st = Ok st.
Proof. apply rand_nothing. Qed.
Print Assumptions C156_nothing.
(** no pixel, or 2^31 and more *)
Theorem C156_size {V F G} save_file (seed : str -> G) draw (of_image : image R -> any V) u output dims sizes (st : state V F) :
  Forall2 (fun a n => parse_size a = Ok n) dims sizes -> fits (prodn sizes) -> prodn sizes = 0 \/ (2 ^ 31 <= Z.of_nat (prodn sizes))%Z -> length sizes < 4 ->
  rand_command V F G save_file seed draw of_image (u :: output :: dims) st = Ok st.
Proof. apply rand_size_nothing. Qed.
Print Assumptions C156_size.
(** four sizes may overflow: undefined *)
Theorem C156_refuted {V F G} save_file (seed : str -> G) draw (of_image : image R -> any V) output (st : state V F) :
  exists dims, (forall a, In a dims -> exists n, parse_size a = Ok n /\ 0 < n) /\ rand_command V F G save_file seed draw of_image (lit "mt19937" :: output :: dims) st = UB.
Proof.
  exists [lit "65536"; lit "1"; lit "65536"; lit "1"].
  assert (E : parse_size (lit "65536") = Ok (Z.to_nat 65536)).
  { unfold parse_size; replace (parse_int 0 (two64 - 1) (lit "65536")) with (@Ok Z 65536%Z) by (vm_compute; reflexivity); reflexivity. }
  assert (E1 : parse_size (lit "1") = Ok 1) by reflexivity.
  split.
  - assert (X : exists n, parse_size (lit "65536") = Ok n /\ 0 < n) by (exists (Z.to_nat 65536); split; [exact E | lia]).
    assert (Y : exists n, parse_size (lit "1") = Ok n /\ 0 < n) by (exists 1; split; [exact E1 | lia]).
    intros a I; cbn [In] in I; destruct I as [<- | [<- | [<- | [<- | []]]]]; assumption.
  - assert (M : mapM parse_size [lit "65536"; lit "1"; lit "65536"; lit "1"] = Ok [Z.to_nat 65536; 1; Z.to_nat 65536; 1]) by (cbn [mapM]; rewrite E, E1; reflexivity).
    unfold rand_command; rewrite M; cbn [bind]; assert (K : existsb (eqs (lit "mt19937")) urbg_names = true) by reflexivity; rewrite K; unfold generate; cbn [reduce_int].
    assert (Ha : Z.of_nat (Z.to_nat 65536) = 65536%Z) by (apply Z2Nat.id; lia); rewrite Ha; reflexivity.
Qed.
Print Assumptions C156_refuted.
Example C156_case : rand_command (image R) unit nat (fun _ _ _ => None) (fun _ => 0) (fun _ => tick) (fun o => (6, o)) [lit "minstd_rand"; lit "$o"; lit "2"; lit "1"] (mkState _ _ [] tt)
  = Ok (mkState _ _ [(lit "o", (6, mkImage [2; 1] [/ INR 2; / INR 3]%R))] tt)
  /\ rand_command (image R) unit nat (fun _ _ _ => None) (fun _ => 0) (fun _ => tick) (fun o => (6, o)) [lit "minstd"; lit "$o"; lit "2"; lit "1"] (mkState _ _ [] tt) = Ok (mkState _ _ [] tt).
Proof. split; reflexivity. Qed.
