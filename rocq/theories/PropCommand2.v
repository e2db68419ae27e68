(** PropCommand2.v - count, replace, multiply and sum on containers, read and write, names of files: C134 to C139. *)
From Coq Require Import ZifyBool ZifyNat Ascii String QArith Qround.
From Verif Require Import Base ImageModel ImageFacts ImageProofs PixelModel PixelProofs HistModel HistProofs CliModel CliProofs PipeProofs PropCli
  CommandModel CommandProofs PropCommand.
Open Scope nat_scope.
Ltac Zify.zify_post_hook ::= Z.div_mod_to_equations.

(** what a user sees of a state: the variables and the files.  [stored st st' n v]: the variable [n] has become [v] *)
Definition stored {V F} (st st' : state V F) (n : str) (v : any V) : Prop :=
  files V F st' = files V F st /\ map_find n (vars V F st') = Some v /\ forall m, m <> n -> map_find m (vars V F st') = map_find m (vars V F st).
Lemma stored_ws {V F} (st : state V F) a v : stored st (mkState V F (ws_store V a v (vars V F st)) (files V F st)) (sanitize a) v.
Proof.
  unfold stored, ws_store; cbn [vars files]; split; [reflexivity|]; rewrite find_set; split.
  - destruct (eqs (sanitize a) (sanitize a)) eqn:E; [reflexivity|]; exfalso; assert (eqs (sanitize a) (sanitize a) = true) by (apply eqs_eq; reflexivity); congruence.
  - intros m Hm; rewrite find_set; destruct (eqs m (sanitize a)) eqn:E; [apply eqs_eq in E; contradiction | reflexivity].
Qed.
(** the values of a type: [bits t] bits, with or without a sign *)
Definition in_type (t : ity) (v : Z) : Prop :=
  if signed t then (- 2 ^ (bits t - 1) <= v < 2 ^ (bits t - 1))%Z else (0 <= v < 2 ^ bits t)%Z.
Lemma in_type_holds t v : in_type t v <-> holds t v.
Proof. unfold in_type, holds, lowest, highest; destruct (signed t); lia. Qed.
(** the argument [a] gives the value [x] of type [u]: a variable, or a number of the type [t] *)
Definition gives {V F} (as_scalar : any V -> option (ity * Z)) (st : state V F) (t : ity) (a : str) (u : ity) (x : Z) : Prop :=
  (exists v, dollar a = true /\ map_find (sanitize (tl a)) (vars V F st) = Some v /\ as_scalar v = Some (u, x)) \/
  (dollar a = false /\ u = t /\ parse_elem t a = Ok x).
Lemma gives_arg {V F} as_scalar (st : state V F) t a u x : gives as_scalar st t a u x -> scalar_arg V F as_scalar t st a = Ok (u, x).
Proof.
  unfold scalar_arg; intros [(v & D & M & A)|(D & -> & P)]; rewrite D; [rewrite M; cbn; rewrite A; reflexivity | rewrite P; reflexivity].
Qed.

(** ** C134  count *)
Lemma filter_count x l : length (filter (fun e => (e =? x)%Z) l) = count_occ Z.eq_dec l x.
Proof. induction l as [|a l IH]; cbn; auto; destruct (Z.eqb_spec a x), (Z.eq_dec a x); cbn; congruence. Qed.
Theorem C134_container {V F} load_file sch as_data as_scalar (of_scalar : ity * Z -> any V) args input target output rest v t l u x (st : state V F) :
  (forall p, sched1_ok (sch p)) -> args_filter args = input :: target :: output :: rest -> dollar output = true ->
  load_arg V F load_file st input = Some v -> as_data v = Some (DSeq t l) -> (1 <= bits t)%Z -> (1 <= bits u)%Z ->
  Forall (in_type t) l -> in_type u x -> gives as_scalar st t target u x ->
  signed t = signed u \/ (0 <= x)%Z /\ Forall (fun e => 0 <= e)%Z l ->
  exists st', count_command V F load_file sch as_data as_scalar of_scalar args st = Ok st'
    /\ stored st st' (sanitize (tl output)) (of_scalar (mkIty 64 false, Z.of_nat (count_occ Z.eq_dec l x))).
Proof.
  intros Hs Fa Do Lv Av Bt Bu Hl Hx G C; unfold count_command; rewrite Fa; unfold load; rewrite Lv; cbn [need bind]; rewrite Av; cbn [need bind elem_type].
  rewrite (gives_arg _ _ _ _ _ _ G); cbn [bind]; unfold count_data; rewrite count_in_ok by (apply order_ok, policy_ok, Hs); cbn [bind any_cast_size]; rewrite Do; cbn [caught].
  eexists; split; [reflexivity|].
  replace (length (filter _ l)) with (count_occ Z.eq_dec l x); [apply stored_ws|]; rewrite <- filter_count; f_equal; apply filter_ext_in; intros e He.
  rewrite Forall_forall in Hl; symmetry; apply eq_mixed_ok; auto; [apply in_type_holds, Hl, He | apply in_type_holds, Hx |].
  destruct C as [C|[C1 C2]]; [left; exact C | right; rewrite Forall_forall in C2; auto].
Qed.
Print Assumptions C134_container.
(** without an output nothing is stored *)
Theorem C134_no_output {V F} load_file sch as_data as_scalar (of_scalar : ity * Z -> any V) args input target (st : state V F) :
  (forall p, sched1_ok (sch p)) -> args_filter args = [input; target] -> count_command V F load_file sch as_data as_scalar of_scalar args st = Ok st.
Proof.
  intros Hs Fa; unfold count_command; rewrite Fa; unfold load; destruct (load_arg V F load_file st input) as [v|]; [|reflexivity]; cbn [need bind].
  destruct (as_data v) as [d|]; [|reflexivity]; cbn [need bind].
  assert (D : scalar_arg V F as_scalar (elem_type d) st target <> UB).
  { unfold scalar_arg; destruct (dollar target); [destruct (map_find _ _) as [w|]; cbn; [destruct (as_scalar w)|]; discriminate|].
    pose proof (parse_elem_defined (elem_type d) target); destruct (parse_elem _ _); cbn; congruence. }
  destruct (scalar_arg V F as_scalar (elem_type d) st target) as [[u x]| |]; [|reflexivity|congruence]; cbn [bind].
  unfold count_data; destruct d as [t im|t l]; rewrite count_in_ok by (apply order_ok, policy_ok, Hs); reflexivity.
Qed.
Print Assumptions C134_no_output.
(** an image: nothing is ever stored *)
Theorem C134_image {V F} load_file sch as_data as_scalar (of_scalar : ity * Z -> any V) args input target rest v t im (st : state V F) :
  (forall p, sched1_ok (sch p)) -> args_filter args = input :: target :: rest -> load_arg V F load_file st input = Some v -> as_data v = Some (DImage t im) ->
  count_command V F load_file sch as_data as_scalar of_scalar args st = Ok st.
Proof.
  intros Hs Fa Lv Av; unfold count_command; rewrite Fa; unfold load; rewrite Lv; cbn [need bind]; rewrite Av; cbn [need bind elem_type].
  assert (D : scalar_arg V F as_scalar t st target <> UB).
  { unfold scalar_arg; destruct (dollar target); [destruct (map_find _ _) as [w|]; cbn; [destruct (as_scalar w)|]; discriminate|].
    pose proof (parse_elem_defined t target); destruct (parse_elem t target); cbn; congruence. }
  destruct (scalar_arg V F as_scalar t st target) as [[u x]| |]; [|reflexivity|congruence]; cbn [bind].
  unfold count_data; rewrite count_in_ok by (apply order_ok, policy_ok, Hs); reflexivity.
Qed.
Print Assumptions C134_image.
(** values for the cases: data, and scalars *)
Inductive val := VData (d : data) | VScalar (s : ity * Z).
Definition val_data (v : any val) : option data := match snd v with VData d => Some d | _ => None end.
Definition val_scalar (v : any val) : option (ity * Z) := match snd v with VScalar s => Some s | _ => None end.
Definition of_val_data (d : data) : any val := (0, VData d).
Definition of_val_scalar (s : ity * Z) : any val := (1, VScalar s).
Definition u8t : ity := mkIty 8 false.
Definition i32t : ity := mkIty 32 true.
Definition u32t : ity := mkIty 32 false.
Definition u64t : ity := mkIty 64 false.
Definition boolt : ity := mkIty 1 false.
Definition val_st (l : list (str * any val)) : state val unit := mkState val unit l tt.
Definition run_count := count_command val unit (fun _ _ => None) (fun _ => seq0) val_data val_scalar of_val_scalar.
(** a count that is not the number of equal elements: -1 and 4294967295; and an image of whose pixels one is counted *)
Theorem C134_refuted : 
  (exists l x args st, val_data (of_val_data (DSeq i32t l)) = Some (DSeq i32t l) /\ Forall (in_type i32t) l /\ in_type u32t x /\ ~ In x l
     /\ map_find (lit "v") (vars _ _ st) = Some (of_val_data (DSeq i32t l)) /\ map_find (lit "x") (vars _ _ st) = Some (of_val_scalar (u32t, x))
     /\ args = [lit "$v"; lit "$x"; lit "$n"]
     /\ exists st', run_count args st = Ok st' /\ map_find (lit "n") (vars _ _ st') = Some (of_val_scalar (size_type, 1%Z))) /\
  (exists im st, In 5%Z (pix im) /\ map_find (lit "v") (vars _ _ st) = Some (of_val_data (DImage u8t im)) /\ run_count [lit "$v"; lit "5"; lit "$n"] st = Ok st).
Proof.
  split.
  - exists [-1]%Z, 4294967295%Z, [lit "$v"; lit "$x"; lit "$n"], (val_st [(lit "v", of_val_data (DSeq i32t [-1]%Z)); (lit "x", of_val_scalar (u32t, 4294967295%Z))]).
    split; [reflexivity|]; split; [constructor; [cbn; lia | constructor]|]; split; [cbn; lia|]; split; [cbn; lia|]; split; [reflexivity|]; split; [reflexivity|]; split; [reflexivity|].
    eexists; split; [vm_compute; reflexivity | reflexivity].
  - exists (mkImage [2; 1] [5; 6]%Z), (val_st [(lit "v", of_val_data (DImage u8t (mkImage [2; 1] [5; 6]%Z)))]); split; [left; reflexivity|]; split; reflexivity.
Qed.
Print Assumptions C134_refuted.
Example C134_case : exists st', run_count [lit "$v"; lit "par"; lit "7"; lit "$n"] (val_st [(lit "v", of_val_data (DSeq u8t [7; 0; 7; 255]%Z))]) = Ok st'
  /\ map_find (lit "n") (vars _ _ st') = Some (of_val_scalar (mkIty 64 false, 2%Z)).
Proof. eexists; split; [vm_compute; reflexivity | reflexivity]. Qed.

(** ** C135  replace *)
Definition replaced (x y : Z) (l : list Z) : list Z := map (fun e => if Z.eq_dec e x then y else e) l.
Lemma replaced_map x y l : map (fun e => if (e =? x)%Z then y else e) l = replaced x y l.
Proof. apply map_ext; intros e; destruct (Z.eqb_spec e x), (Z.eq_dec e x); congruence. Qed.
Theorem C135_image {V F} load_file save_file sch as_data of_data as_scalar args input ta na output rest v t im u x u' y (st : state V F) :
  (forall p, sched1_ok (sch p)) -> args_filter args = input :: ta :: na :: output :: rest ->
  load_arg V F load_file st input = Some v -> as_data v = Some (DImage t im) -> (1 <= bits t)%Z ->
  gives as_scalar st t ta u x -> gives as_scalar st t na u' y -> in_type t x -> in_type t y ->
  replace_command V F load_file save_file sch as_data of_data as_scalar args st
  = Ok (save_arg V F save_file st output (of_data (DImage t (mkImage (dims im) (replaced x y (pix im)))))).
Proof.
  intros Hs Fa Lv Av Bt Gx Gy Hx Hy; unfold replace_command; rewrite Fa; unfold load; rewrite Lv; cbn [need bind]; rewrite Av; cbn [need bind elem_type].
  rewrite (gives_arg _ _ _ _ _ _ Gx); cbn [bind]; rewrite (gives_arg _ _ _ _ _ _ Gy); cbn [bind].
  unfold replace_data; rewrite !conv_id by (auto; apply in_type_holds; auto); rewrite replace_in_ok by (apply order_ok, policy_ok, Hs); rewrite replaced_map; reflexivity.
Qed.
Print Assumptions C135_image.
Lemma no_policy args : filter is_policy args = [] -> extract_policy args = [].
Proof. induction args as [|a args IH]; [reflexivity|]; cbn [filter extract_policy]; destruct (is_policy a); [discriminate | exact IH]. Qed.
Theorem C135_container {V F} load_file save_file sch as_data of_data as_scalar args input ta na output rest v t l u x u' y (st : state V F) :
  (forall p, sched1_ok (sch p)) -> args_filter args = input :: ta :: na :: output :: rest ->
  load_arg V F load_file st input = Some v -> as_data v = Some (DSeq t l) -> (1 <= bits t)%Z -> (1 <= bits u)%Z -> Forall (in_type t) l ->
  gives as_scalar st t ta u x -> gives as_scalar st t na u' y -> in_type u x -> in_type t y ->
  signed t = signed u \/ (0 <= x)%Z /\ Forall (fun e => 0 <= e)%Z l ->
  filter is_policy args = [] \/ u = u' ->
  replace_command V F load_file save_file sch as_data of_data as_scalar args st
  = Ok (save_arg V F save_file st output (of_data (DSeq t (replaced x y l)))).
Proof.
  intros Hs Fa Lv Av Bt Bu Hl Gx Gy Hx Hy C P; unfold replace_command; rewrite Fa; unfold load; rewrite Lv; cbn [need bind]; rewrite Av; cbn [need bind elem_type].
  rewrite (gives_arg _ _ _ _ _ _ Gx); cbn [bind]; rewrite (gives_arg _ _ _ _ _ _ Gy); cbn [bind].
  assert (E : replace_in (order (policy_of sch (extract_policy args))) (fun e => eq_mixed t u e x) (conv t y) l = Ok (replaced x y l)).
  { rewrite replace_in_ok by (apply order_ok, policy_ok, Hs); rewrite conv_id by (auto; apply in_type_holds; auto); f_equal; rewrite <- replaced_map; apply map_ext_in; intros e He.
    rewrite Forall_forall in Hl; rewrite eq_mixed_ok; auto; [apply in_type_holds, Hl, He | apply in_type_holds, Hx |].
    destruct C as [C|[C1 C2]]; [left; exact C | right; rewrite Forall_forall in C2; auto]. }
  unfold replace_data; destruct P as [P|P].
  - rewrite (no_policy _ P) in *; change (policy_of sch []) with (@None (nat -> list nat)) in *; rewrite E; reflexivity.
  - subst u'; assert (S1 : same_ity u u = true) by (unfold same_ity; rewrite Z.eqb_refl, Bool.eqb_reflx; reflexivity); rewrite S1.
    destruct (policy_of sch (extract_policy args)); rewrite E; reflexivity.
Qed.
Print Assumptions C135_container.
Definition run_replace := replace_command val unit (fun _ _ => None) (fun _ _ _ => None) (fun _ => seq0) val_data of_val_data val_scalar.
(** a target that no pixel has is found; and a policy makes the command fail *)
Theorem C135_refuted :
  (exists im x st, Forall (in_type u8t) (pix im) /\ in_type i32t x /\ ~ In x (pix im)
     /\ map_find (lit "v") (vars _ _ st) = Some (of_val_data (DImage u8t im)) /\ map_find (lit "x") (vars _ _ st) = Some (of_val_scalar (i32t, x))
     /\ exists st' im', run_replace [lit "$v"; lit "$x"; lit "9"; lit "$n"] st = Ok st' /\ map_find (lit "n") (vars _ _ st') = Some (of_val_data (DImage u8t im')) /\ pix im' <> pix im) /\
  (exists st st', run_replace [lit "$v"; lit "$x"; lit "9"; lit "$n"] st = Ok st' /\ map_find (lit "n") (vars _ _ st') = Some (of_val_data (DSeq u8t [9; 2]%Z))
     /\ run_replace [lit "par"; lit "$v"; lit "$x"; lit "9"; lit "$n"] st = Ok st /\ map_find (lit "n") (vars _ _ st) = None).
Proof.
  split.
  - exists (mkImage [2; 1] [0; 1]%Z), 256%Z, (val_st [(lit "v", of_val_data (DImage u8t (mkImage [2; 1] [0; 1]%Z))); (lit "x", of_val_scalar (i32t, 256%Z))]).
    split; [repeat constructor; cbn; lia|]; split; [cbn; lia|]; split; [cbn; lia|]; split; [reflexivity|]; split; [reflexivity|].
    eexists; exists (mkImage [2; 1] [9; 1]%Z).
    split; [vm_compute; reflexivity|]; split; [reflexivity | discriminate].
  - exists (val_st [(lit "v", of_val_data (DSeq u8t [1; 2]%Z)); (lit "x", of_val_scalar (i32t, 1%Z))]).
    eexists; split; [vm_compute; reflexivity|]; split; [reflexivity|]; split; vm_compute; reflexivity.
Qed.
Print Assumptions C135_refuted.
Example C135_case : exists st', run_replace [lit "$v"; lit "par_unseq"; lit "0"; lit "9"; lit "$n"] (val_st [(lit "v", of_val_data (DImage u8t (mkImage [2; 2] [0; 1; 2; 0]%Z)))]) = Ok st'
  /\ map_find (lit "n") (vars _ _ st') = Some (of_val_data (DImage u8t (mkImage [2; 2] [9; 1; 2; 9]%Z))).
Proof. eexists; split; [vm_compute; reflexivity | reflexivity]. Qed.

(** ** C136  multiply on containers: the product, cut off towards zero and kept inside the type *)
Definition cut_off (lo hi : Z) (q : Q) (r : Z) : Prop :=
  ((q <= inject_Z lo)%Q /\ r = lo) \/ ((inject_Z hi <= q)%Q /\ r = hi) \/
  ((inject_Z lo <= q <= inject_Z hi)%Q /\ (((0 <= q)%Q /\ (inject_Z r <= q < inject_Z (r + 1))%Q) \/ ((q <= 0)%Q /\ (inject_Z (r - 1) < q <= inject_Z r)%Q))).
Lemma mult_elem_ok t s e : (1 <= bits t <= 53)%Z -> is_bool t = false -> exists r, mult_elem t s e = Ok r /\ cut_off (lowest t) (highest t) (inject_Z e * s) r.
Proof.
  intros B NB; unfold mult_elem; rewrite NB; unfold max_double; destruct (Z.leb_spec (bits t) 53); [|lia]; clear H.
  set (q := (inject_Z e * s)%Q); clearbody q.
  assert (LH : (lowest t <= 0 <= highest t)%Z).
  { unfold lowest, highest; pose proof (pow_pos (bits t - 1)); pose proof (pow_pos (bits t)); destruct (signed t); lia. }
  set (lo := lowest t) in *; set (hi := highest t) in *; clearbody lo hi.
  assert (T : forall z, qtrunc (inject_Z z) = z) by (intros z; unfold qtrunc; destruct (Qle_bool 0 (inject_Z z)); [apply Qfloor_Z | apply Qceiling_Z]).
  assert (R : forall z, (lo <= z <= hi)%Z -> (lo <=? z)%Z && (z <=? hi)%Z = true) by (intros; lia).
  unfold qclamp; destruct (Qle_bool (inject_Z lo) q) eqn:L; cbn [negb].
  2:{ cbv zeta; rewrite T, R by lia; exists lo; split; [reflexivity|]; left; split; [|reflexivity].
      destruct (Qlt_le_dec q (inject_Z lo)); [apply Qlt_le_weak; auto|]; apply Qle_bool_iff in q0; congruence. }
  destruct (Qle_bool q (inject_Z hi)) eqn:H; cbn [negb].
  2:{ cbv zeta; rewrite T, R by lia; exists hi; split; [reflexivity|]; right; left; split; [|reflexivity].
      destruct (Qlt_le_dec (inject_Z hi) q); [apply Qlt_le_weak; auto|]; apply Qle_bool_iff in q0; congruence. }
  apply Qle_bool_iff in L, H; cbv zeta; unfold qtrunc; destruct (Qle_bool 0 q) eqn:P.
  - apply Qle_bool_iff in P; pose proof (Qfloor_resp_le _ _ L) as FL; pose proof (Qfloor_resp_le _ _ H) as FH; rewrite Qfloor_Z in FL, FH.
    rewrite R by lia; eexists; split; [reflexivity|]; right; right; split; [split; auto|]; left; split; [exact P|]; split; [apply Qfloor_le | apply Qlt_floor].
  - assert (N : (q <= 0)%Q) by (destruct (Qlt_le_dec q 0); [apply Qlt_le_weak; auto|]; apply Qle_bool_iff in q0; congruence).
    pose proof (Qceiling_resp_le _ _ L) as FL; pose proof (Qceiling_resp_le _ _ H) as FH; rewrite Qceiling_Z in FL, FH.
    rewrite R by lia; eexists; split; [reflexivity|]; right; right; split; [split; auto|]; right; split; [exact N|]; split; [apply Qceiling_lt | apply Qle_ceiling].
Qed.
Lemma mult_seq_ok pol t s l (P : Z -> Z -> Prop) : pol_ok pol -> (forall e, exists r, mult_elem t s e = Ok r /\ P e r) -> exists l', mult_seq pol t s l = Ok l' /\ Forall2 P l l'.
Proof.
  intros Hp HE; pose (g e := match mult_elem t s e with Ok r => r | _ => 0%Z end).
  assert (G : forall e, mult_elem t s e = Ok (g e) /\ P e (g e)) by (intros e; unfold g; destruct (HE e) as (r & -> & H); auto).
  exists (map g l); split.
  - unfold mult_seq; destruct pol as [sc|].
    + rewrite (fill_ok _ _ _ _ (fun i => g (nth i l 0%Z))); [|exact Hp|].
      * f_equal; apply (map_seq_nth g 0%Z l).
      * intros i Hi; rewrite (vget_ok _ _ (nth i l 0%Z)) by (apply nth_error_nth'; exact Hi); cbn [bind]; apply G.
    + apply mapM_ok; intros; apply G.
  - induction l as [|a l IH]; cbn; constructor; auto; apply G.
Qed.
Theorem C136_multiply {V F} load_file save_file sch as_data of_data parse_double args input output sa rest v t l s (st : state V F) :
  (forall p, sched1_ok (sch p)) -> args_filter args = input :: output :: sa :: rest -> parse_double sa = Ok s ->
  load_arg V F load_file st input = Some v -> as_data v = Some (DSeq t l) -> (2 <= bits t <= 53)%Z ->
  exists l', multiply_command V F load_file save_file sch as_data of_data parse_double args st = Ok (save_arg V F save_file st output (of_data (DSeq t l')))
    /\ Forall2 (fun e r => cut_off (if signed t then - 2 ^ (bits t - 1) else 0)%Z (if signed t then 2 ^ (bits t - 1) - 1 else 2 ^ bits t - 1)%Z (inject_Z e * s) r) l l'.
Proof.
  intros Hs Fa Ps Lv Av B; unfold multiply_command, transform_command; rewrite Fa; cbn [length Nat.ltb Nat.leb nth]; rewrite Ps; cbn [bind]; unfold load; rewrite Lv; cbn [need bind]; rewrite Av; cbn [need bind].
  destruct (mult_seq_ok (policy_of sch (extract_policy args)) t s l (fun e r => cut_off (lowest t) (highest t) (inject_Z e * s) r)) as (l' & E & H).
  - apply policy_ok, Hs.
  - intros e; apply mult_elem_ok; [lia|]; unfold is_bool; destruct (Z.eqb_spec (bits t) 1); [lia | reflexivity].
  - exists l'; rewrite E; split; [reflexivity | exact H].
Qed.
Print Assumptions C136_multiply.
Definition run_multiply s := multiply_command val unit (fun _ _ => None) (fun _ _ _ => None) (fun _ => seq0) val_data of_val_data (fun _ => Ok s).
(** bool: half of true is true; 64 bits: the largest value times one is undefined *)
Theorem C136_refuted :
  (exists st st', map_find (lit "v") (vars _ _ st) = Some (of_val_data (DSeq boolt [1]%Z)) /\ run_multiply (1 # 2) [lit "$v"; lit "$n"; lit "0.5"] st = Ok st'
     /\ map_find (lit "n") (vars _ _ st') = Some (of_val_data (DSeq boolt [1]%Z)) /\ ~ cut_off 0 1 (1 # 2) 1) /\
  (exists st, map_find (lit "v") (vars _ _ st) = Some (of_val_data (DSeq u64t [18446744073709551615]%Z)) /\ run_multiply 2 [lit "$v"; lit "$n"; lit "2"] st = UB).
Proof.
  split.
  - exists (val_st [(lit "v", of_val_data (DSeq boolt [1]%Z))]); eexists; split; [reflexivity|]; split; [vm_compute; reflexivity|]; split; [reflexivity|].
    intros [[_ H]|[[H _]|[_ [[_ [H _]]|[H _]]]]]; try discriminate; unfold Qle in H; cbn in H; lia.
  - exists (val_st [(lit "v", of_val_data (DSeq u64t [18446744073709551615]%Z))]); split; [reflexivity | vm_compute; reflexivity].
Qed.
Print Assumptions C136_refuted.
Example C136_case : exists st', run_multiply (-3 # 2) [lit "$v"; lit "par"; lit "$n"; lit "-1.5"] (val_st [(lit "v", of_val_data (DSeq (mkIty 8 true) [3; -3; 100; -128]%Z))]) = Ok st'
  /\ map_find (lit "n") (vars _ _ st') = Some (of_val_data (DSeq (mkIty 8 true) [-4; 4; -128; 127]%Z)).
Proof. eexists; split; [vm_compute; reflexivity | reflexivity]. Qed.

(** ** C137  sum on containers *)
Fixpoint total (l : list Z) : Z := match l with [] => 0 | e :: l => e + total l end%Z.
Fixpoint size_of (l : list Z) : Z := match l with [] => 0 | e :: l => Z.abs e + size_of l end%Z.
Lemma total_app l m : total (l ++ m) = (total l + total m)%Z.
Proof. induction l; cbn; lia. Qed.
Lemma size_app l m : size_of (l ++ m) = (size_of l + size_of m)%Z.
Proof. induction l; cbn; lia. Qed.
Lemma total_perm l m : Permutation l m -> total l = total m.
Proof. induction 1; cbn; lia. Qed.
Lemma size_perm l m : Permutation l m -> size_of l = size_of m.
Proof. induction 1; cbn; lia. Qed.
Lemma size_nonneg l : (0 <= size_of l)%Z.
Proof. induction l; cbn; lia. Qed.
Lemma total_size l : (Z.abs (total l) <= size_of l)%Z.
Proof. induction l; cbn; lia. Qed.
Lemma reduces_left {A} (op : A -> A -> A) l : forall a, reduces op (a :: l) (fold_left op l a).
Proof.
  induction l as [|x l IH] using rev_ind; intros a; [constructor|].
  rewrite fold_left_app; cbn [fold_left]; apply (red_split op _ (a :: l) [x]); [reflexivity | apply IH | constructor].
Qed.
(** combining in any order and with any grouping *)
Lemma reduces_by t (good : list Z -> Prop) (g : list Z -> Z) :
  (forall a, good [a] -> g [a] = a) -> (forall l m, Permutation l m -> good l -> good m /\ g l = g m) ->
  (forall l m, good (l ++ m) -> good l /\ good m /\ plus_elem t (Ok (g l)) (Ok (g m)) = Ok (g (l ++ m))) ->
  forall xs ls r, reduces (plus_elem t) ls r -> ls = map Ok xs -> good xs -> r = Ok (g xs).
Proof.
  intros G1 GP GA xs ls r H; revert xs; induction H as [a|l l1 l2 a b P R1 IH1 R2 IH2]; intros xs E Gx.
  - destruct xs as [|x [|]]; try discriminate; injection E as ->; rewrite G1; auto.
  - subst l; apply Permutation_sym, Permutation_map_inv in P; destruct P as (ys & E & P).
    symmetry in E; apply map_eq_app in E; destruct E as (y1 & y2 & -> & E1 & E2); subst l1 l2.
    destruct (GP _ _ P Gx) as [Gy ->]; destruct (GA _ _ Gy) as (Ga & Gb & EQ).
    rewrite (IH1 y1 eq_refl Ga), (IH2 y2 eq_refl Gb); exact EQ.
Qed.
Definition combines (red : str -> ity -> list (res Z) -> res Z) : Prop := forall p t a l, reduces (plus_elem t) (a :: l) (red p t (a :: l)).
Lemma sum_seq_reduces red pol t l : combines red -> reduces (plus_elem t) (map Ok (0%Z :: l)) (sum_seq (if is_policy pol then Some (red pol t) else None) t l).
Proof. intros H; unfold sum_seq; destruct (is_policy pol); [apply H | apply reduces_left]. Qed.
Section Sum.
  Context {V F : Type} (load_file : F -> str -> option (any V)) (as_data : any V -> option data) (of_scalar : ity * Z -> any V) (red : str -> ity -> list (res Z) -> res Z).
  Lemma sum_command_ok args input output rest v t l z (st : state V F) :
    args_filter args = input :: output :: rest -> dollar output = true -> load_arg V F load_file st input = Some v -> as_data v = Some (DSeq t l) ->
    (forall pol, sum_seq (if is_policy pol then Some (red pol t) else None) t l = Ok z) ->
    exists st', sum_command V F load_file as_data of_scalar red args st = Ok st' /\ stored st st' (sanitize (tl output)) (of_scalar (t, z)).
  Proof.
    intros Fa Do Lv Av E; unfold sum_command; pose proof (scalar_filter args) as Q; destruct (scalar_args args) as [p l']; cbn [snd] in Q; subst l'; rewrite Fa.
    unfold load; rewrite Lv; cbn [need bind]; rewrite Av; cbn [need bind]; rewrite E; cbn [bind]; rewrite Do; eexists; split; [reflexivity | apply stored_ws].
  Qed.
End Sum.
(** the sum, when the sizes of the elements together fit *)
Theorem C137_exact {V F} load_file as_data (of_scalar : ity * Z -> any V) red args input output rest v t l (st : state V F) :
  combines red -> args_filter args = input :: output :: rest -> dollar output = true -> load_arg V F load_file st input = Some v -> as_data v = Some (DSeq t l) ->
  (2 <= bits t)%Z -> Forall (in_type t) l -> (size_of l < if signed t then 2 ^ (bits t - 1) else 2 ^ bits t)%Z ->
  exists st', sum_command V F load_file as_data of_scalar red args st = Ok st' /\ stored st st' (sanitize (tl output)) (of_scalar (t, total l)).
Proof.
  intros HR Fa Do Lv Av B Hl Sz; eapply sum_command_ok; eauto; intros pol.
  change (total l) with (0 + total l)%Z; change (0 + total l)%Z with (total (0 :: l)%Z).
  refine (reduces_by t (fun l => Forall (in_type t) l /\ size_of l <= highest t)%Z total _ _ _ (0 :: l)%Z _ _ (sum_seq_reduces red pol t l HR) eq_refl _).
  - intros a _; cbn; lia.
  - intros a b P [H1 H2]; split; [|apply total_perm, P]; split; [eapply Permutation_Forall; eauto | rewrite <- (size_perm _ _ P); exact H2].
  - intros a b [H1 H2]; apply Forall_app in H1; destruct H1 as [Ha Hb]; rewrite size_app in H2; pose proof (size_nonneg a); pose proof (size_nonneg b).
    split; [split; auto; lia|]; split; [split; auto; lia|].
    assert (K : holds t (total a + total b)%Z).
    { pose proof (total_size a); pose proof (total_size b); unfold holds.
      assert (N : signed t = false -> (0 <= total a /\ 0 <= total b)%Z).
      { intros Sg; clear -Ha Hb Sg; unfold in_type in *; rewrite Sg in *; split; [induction Ha | induction Hb]; cbn; lia. }
      unfold lowest, highest in *; pose proof (pow_pos (bits t - 1)); destruct (signed t); [lia | specialize (N eq_refl); lia]. }
    unfold plus_elem; cbn [bind]; rewrite total_app; destruct (signed t && (32 <=? bits t)%Z); [|rewrite conv_id by (auto; lia); reflexivity].
    unfold holds in K; destruct ((lowest t <=? _)%Z && _) eqn:Q; [reflexivity | lia].
  - split; [constructor; auto; unfold in_type; pose proof (pow_pos (bits t - 1)); pose proof (pow_pos (bits t)); destruct (signed t); lia|].
    cbn; unfold highest; destruct (signed t); lia.
Qed.
Print Assumptions C137_exact.
(** unsigned types: the sum modulo the number of values *)
Theorem C137_wraps {V F} load_file as_data (of_scalar : ity * Z -> any V) red args input output rest v t l (st : state V F) :
  combines red -> args_filter args = input :: output :: rest -> dollar output = true -> load_arg V F load_file st input = Some v -> as_data v = Some (DSeq t l) ->
  (2 <= bits t)%Z -> signed t = false -> Forall (in_type t) l ->
  exists st', sum_command V F load_file as_data of_scalar red args st = Ok st' /\ stored st st' (sanitize (tl output)) (of_scalar (t, total l mod 2 ^ bits t)%Z).
Proof.
  intros HR Fa Do Lv Av B Sg Hl; eapply sum_command_ok; eauto; intros pol.
  change (total l) with (total (0 :: l)%Z).
  refine (reduces_by t (Forall (in_type t)) (fun l => total l mod 2 ^ bits t)%Z _ _ _ (0 :: l)%Z _ _ (sum_seq_reduces red pol t l HR) eq_refl _).
  - intros a H; inversion H as [|? ? Ha _]; subst; unfold in_type in Ha; rewrite Sg in Ha; cbn [total]; rewrite Z.add_0_r; apply Z.mod_small, Ha.
  - intros a b P H; split; [eapply Permutation_Forall; eauto | rewrite (total_perm _ _ P); reflexivity].
  - intros a b H; apply Forall_app in H; destruct H as [Ha Hb]; split; [exact Ha|]; split; [exact Hb|].
    unfold plus_elem; cbn [bind]; rewrite Sg; cbn [andb]; unfold conv, is_bool; destruct (Z.eqb_spec (bits t) 1); [lia|]; cbn [andb]; rewrite Sg, total_app, <- Z.add_mod; [reflexivity|].
    pose proof (pow_pos (bits t)); lia.
  - constructor; auto; unfold in_type; rewrite Sg; pose proof (pow_pos (bits t)); lia.
Qed.
Print Assumptions C137_wraps.
(** a vector of bool: whether an element is true *)
Theorem C137_bool {V F} load_file as_data (of_scalar : ity * Z -> any V) red args input output rest v l (st : state V F) :
  combines red -> args_filter args = input :: output :: rest -> dollar output = true -> load_arg V F load_file st input = Some v -> as_data v = Some (DSeq (mkIty 1 false) l) ->
  Forall (fun e => e = 0 \/ e = 1)%Z l ->
  exists st', sum_command V F load_file as_data of_scalar red args st = Ok st' /\ stored st st' (sanitize (tl output)) (of_scalar (mkIty 1 false, if in_dec Z.eq_dec 1%Z l then 1 else 0)%Z).
Proof.
  intros HR Fa Do Lv Av Hl; eapply sum_command_ok; eauto; intros pol.
  replace (if in_dec Z.eq_dec 1%Z l then 1 else 0)%Z with (if in_dec Z.eq_dec 1%Z (0 :: l)%Z then 1 else 0)%Z.
  2:{ destruct (in_dec Z.eq_dec 1%Z (0 :: l)%Z) as [[I|I]|I], (in_dec Z.eq_dec 1%Z l) as [J|J]; auto; try discriminate; try contradiction; destruct I; right; auto. }
  refine (reduces_by (mkIty 1 false) (Forall (fun e => e = 0 \/ e = 1)%Z) (fun l => if in_dec Z.eq_dec 1%Z l then 1 else 0)%Z _ _ _ (0 :: l)%Z _ _ (sum_seq_reduces red pol _ l HR) eq_refl _).
  - intros a H; inversion H as [|? ? [-> | ->] _]; subst; reflexivity.
  - intros a b P H; split; [eapply Permutation_Forall; eauto|].
    destruct (in_dec Z.eq_dec 1%Z a) as [I|I], (in_dec Z.eq_dec 1%Z b) as [J|J]; auto.
    + destruct J; eapply Permutation_in; eauto.
    + destruct I; eapply Permutation_in; [apply Permutation_sym|]; eauto.
  - intros a b H; apply Forall_app in H; destruct H as [Ha Hb]; split; [exact Ha|]; split; [exact Hb|].
    unfold plus_elem; cbn [bind]; cbn [signed andb].
    destruct (in_dec Z.eq_dec 1%Z a) as [I|I], (in_dec Z.eq_dec 1%Z b) as [J|J], (in_dec Z.eq_dec 1%Z (a ++ b)) as [K|K]; try reflexivity; rewrite in_app_iff in K; tauto.
  - constructor; auto.
Qed.
Print Assumptions C137_bool.
Definition run_sum := sum_command val unit (fun _ _ => None) val_data of_val_scalar (fun _ t l => fold_left (plus_elem t) (tl l) (hd UB l)).
(** sums that are not the sum: 200 + 100 in eight bits, two true ones; and int overflow is undefined *)
Theorem C137_refuted :
  (exists st st', map_find (lit "v") (vars _ _ st) = Some (of_val_data (DSeq u8t [200; 100]%Z)) /\ run_sum [lit "$v"; lit "$n"] st = Ok st'
     /\ map_find (lit "n") (vars _ _ st') = Some (of_val_scalar (u8t, 44%Z)) /\ total [200; 100]%Z <> 44%Z) /\
  (exists st st', map_find (lit "v") (vars _ _ st) = Some (of_val_data (DSeq boolt [1; 1]%Z)) /\ run_sum [lit "$v"; lit "$n"] st = Ok st'
     /\ map_find (lit "n") (vars _ _ st') = Some (of_val_scalar (boolt, 1%Z)) /\ total [1; 1]%Z <> 1%Z) /\
  (exists l st, Forall (in_type i32t) l /\ in_type i32t (total l) /\ map_find (lit "v") (vars _ _ st) = Some (of_val_data (DSeq i32t l)) /\ run_sum [lit "$v"; lit "$n"] st = UB).
Proof.
  split; [|split].
  - exists (val_st [(lit "v", of_val_data (DSeq u8t [200; 100]%Z))]); eexists; split; [reflexivity|]; split; [vm_compute; reflexivity|]; split; [reflexivity | discriminate].
  - exists (val_st [(lit "v", of_val_data (DSeq boolt [1; 1]%Z))]); eexists; split; [reflexivity|]; split; [vm_compute; reflexivity|]; split; [reflexivity | discriminate].
  - exists [2147483647; 1; -1]%Z, (val_st [(lit "v", of_val_data (DSeq i32t [2147483647; 1; -1]%Z))]).
    split; [repeat constructor; cbn; lia|]; split; [cbn; lia|]; split; [reflexivity | vm_compute; reflexivity].
Qed.
Print Assumptions C137_refuted.
Example C137_case : combines (fun _ t l => fold_left (plus_elem t) (tl l) (hd UB l)) /\
  exists st', run_sum [lit "$v"; lit "par"; lit "$n"] (val_st [(lit "v", of_val_data (DSeq i32t [7; -9; 300]%Z))]) = Ok st'
  /\ map_find (lit "n") (vars _ _ st') = Some (of_val_scalar (i32t, 298%Z)).
Proof. split; [intros p t a l; apply reduces_left|]; eexists; split; [vm_compute; reflexivity | reflexivity]. Qed.

(** ** C138  the parts of a path: directory, stem and extension *)
Definition parts (p d s e : str) : Prop :=
  p = d ++ s ++ e /\ (d = [] \/ exists d', d = d' ++ ["/"%char]) /\ ~ In "/"%char (s ++ e) /\
  ((e = [] /\ (s = lit ".." \/ ~ In "."%char (tl s))) \/ (exists x, e = "."%char :: x /\ ~ In "."%char x /\ s <> [] /\ s ++ e <> lit "..")).
Lemma split_last_none c s : ~ In c s -> split_last c s = None.
Proof.
  induction s as [|a s IH]; intros H; cbn [split_last]; auto; rewrite IH by (intros I; apply H; right; auto).
  destruct (Ascii.eqb_spec a c) as [->|]; [exfalso; apply H; left; auto | reflexivity].
Qed.
Lemma split_last_some c a b : ~ In c b -> split_last c (a ++ c :: b) = Some (a, b).
Proof.
  intros H; induction a as [|x a IH]; cbn [app split_last]; [rewrite split_last_none by exact H; rewrite Ascii.eqb_refl; reflexivity | rewrite IH; reflexivity].
Qed.
Lemma last_cases (c : ascii) s : ~ In c s \/ exists a b, s = a ++ c :: b /\ ~ In c b.
Proof.
  induction s as [|x s [H|(a & b & -> & H)]].
  - left; auto.
  - destruct (ascii_dec x c) as [->|N]; [right; exists [], s; auto | left; intros [E|I]; [congruence | auto]].
  - right; exists (x :: a), b; auto.
Qed.
Lemma eqs_false (a : str) (s : string) : a <> lit s -> eqs a (lit s) = false.
Proof. intros H; destruct (eqs a (lit s)) eqn:E; auto; apply eqs_eq in E; contradiction. Qed.
Lemma split_ext_parts s e : ((e = [] /\ (s = lit ".." \/ ~ In "."%char (tl s))) \/ (exists x, e = "."%char :: x /\ ~ In "."%char x /\ s <> [] /\ s ++ e <> lit "..")) ->
  split_ext (s ++ e) = (s, e).
Proof.
  unfold split_ext; intros [[-> [->|H]]|(x & -> & H & N & D)].
  - reflexivity.
  - rewrite app_nil_r; destruct (_ || _); [reflexivity|]; destruct s as [|c s]; [reflexivity|]; cbn [tl] in H; cbn [split_last]; rewrite split_last_none by exact H.
    destruct (Ascii.eqb c "."); reflexivity.
  - rewrite (eqs_false _ ".."), (eqs_false _ "."), split_last_some; auto.
    + destruct s; [congruence | reflexivity].
    + destruct s as [|c [|c' s]]; [congruence | discriminate | discriminate].
Qed.
Lemma split_dir_parts d f : (d = [] \/ exists d', d = d' ++ ["/"%char]) -> ~ In "/"%char f -> split_dir (d ++ f) = (d, f).
Proof.
  unfold split_dir; intros [->|(d' & ->)] H; cbn [app]; [rewrite split_last_none by exact H; reflexivity|].
  rewrite <- app_assoc; cbn [app]; rewrite split_last_some by exact H; reflexivity.
Qed.
Lemma path_parts p d s e : parts p d s e -> path_stem p = s /\ path_ext p = e /\ path_base p = d ++ s.
Proof.
  intros (-> & D & N & E); unfold path_base, path_stem, path_ext; rewrite split_dir_parts by auto; cbn [fst snd]; rewrite split_ext_parts by exact E; auto.
Qed.
(** every path has these parts, and no others *)
Theorem C138_parts : forall p, exists d s e, parts p d s e /\ forall d' s' e', parts p d' s' e' -> d' = d /\ s' = s /\ e' = e.
Proof.
  intros p; assert (X : exists d s e, parts p d s e).
  { assert (Dd : exists d f, p = d ++ f /\ (d = [] \/ exists d', d = d' ++ ["/"%char]) /\ ~ In "/"%char f).
    { destruct (last_cases "/"%char p) as [H|(a & b & -> & H)]; [exists [], p; auto|].
      exists (a ++ ["/"%char]), b; split; [rewrite <- app_assoc; reflexivity|]; split; [right; eauto | auto]. }
    destruct Dd as (d & f & -> & D & N); destruct (list_eq_dec ascii_dec f (lit "..")) as [->|Q].
    - exists d, (lit ".."), []; unfold parts; rewrite app_nil_r; split; [auto|]; split; [auto|]; split; [auto|]; left; auto.
    - destruct (last_cases "."%char f) as [H|([|c a] & b & -> & H)].
      + exists d, f, []; unfold parts; rewrite app_nil_r; split; [auto|]; split; [auto|]; split; [auto|]; left; split; auto; right; intros I; apply H; destruct f; [destruct I | right; exact I].
      + exists d, ("."%char :: b), []; unfold parts; rewrite app_nil_r; split; [auto|]; split; [auto|]; split; [auto|]; left; auto.
      + exists d, (c :: a), ("."%char :: b); unfold parts; split; [auto|]; split; [auto|]; split; [auto|]; right; exists b; split; [auto|]; split; [auto|]; split; [discriminate | exact Q]. }
  destruct X as (d & s & e & P); exists d, s, e; split; [exact P|]; intros d' s' e' P'.
  destruct (path_parts _ _ _ _ P) as (A & B & C), (path_parts _ _ _ _ P') as (A' & B' & C'); subst s s' e e'; rewrite C' in C; apply app_inv_tail in C; auto.
Qed.
Print Assumptions C138_parts.
(** read with one argument: the variable has the name of the file without directory and extension *)
Theorem C138_read {V F} load_file save_file is_img input t d s e v (st : state V F) :
  trimmed input t -> parts t d s e -> load_arg V F load_file st input = Some v -> is_img v = true ->
  exists st', read_command V F load_file save_file is_img [input] st = Ok st' /\ stored st st' (sanitize s) v.
Proof.
  intros T P Lv Im; apply C60_sanitize in T; unfold read_command, load; rewrite Lv; cbn [need bind]; rewrite Im, T; destruct (path_parts _ _ _ _ P) as (-> & _ & _).
  cbn [caught]; eexists; split; [reflexivity | apply stored_ws].
Qed.
Print Assumptions C138_read.
Theorem C138_read_to {V F} load_file save_file is_img input output rest (st : state V F) :
  (dollar output = true -> forall v, load_arg V F load_file st input = Some v -> is_img v = true ->
     exists st', read_command V F load_file save_file is_img (input :: output :: rest) st = Ok st' /\ stored st st' (sanitize (tl output)) v) /\
  (dollar output = false \/ load_arg V F load_file st input = None -> read_command V F load_file save_file is_img (input :: output :: rest) st = Ok st).
Proof.
  unfold read_command, load; split.
  - intros D v Lv Im; rewrite D, Lv; cbn [negb need bind]; rewrite Im; cbn [caught]; unfold save, save_arg; rewrite D; eexists; split; [reflexivity | apply stored_ws].
  - intros [D|L]; [rewrite D; reflexivity | rewrite L; destruct (negb (dollar output)); reflexivity].
Qed.
Print Assumptions C138_read_to.
(** write: the value of a variable goes to the file, or to another variable *)
Theorem C138_write {V F} load_file save_file is_img input output rest (st : state V F) :
  (dollar input = true -> forall v, map_find (sanitize (tl input)) (vars V F st) = Some v -> is_img v = true ->
     write_command V F load_file save_file is_img (input :: output :: rest) st = Ok (save_arg V F save_file st output v)) /\
  (dollar input = false \/ map_find (sanitize (tl input)) (vars V F st) = None -> write_command V F load_file save_file is_img (input :: output :: rest) st = Ok st).
Proof.
  unfold write_command, load; split.
  - intros D v Lv Im; unfold load_arg; rewrite D; cbn [negb]; rewrite Lv; cbn [need bind]; rewrite Im; reflexivity.
  - intros [D|L]; [rewrite D; reflexivity|]; destruct (dollar input) eqn:D; cbn [negb]; [|reflexivity]; unfold load_arg; rewrite D, L; reflexivity.
Qed.
Print Assumptions C138_write.
(** files of different directories or kinds can have one name: the second read loses what the first had stored *)
Theorem C138_refuted {V F} load_file save_file is_img f (v1 v2 : any V) : 
  load_file f (lit "a/x.bmp") = Some v1 -> load_file f (lit "b/x.dbmp") = Some v2 -> is_img v1 = true -> is_img v2 = true -> v1 <> v2 ->
  exists st1 st2, read_command V F load_file save_file is_img [lit "a/x.bmp"] (mkState V F [] f) = Ok st1 /\
    read_command V F load_file save_file is_img [lit "b/x.dbmp"] st1 = Ok st2 /\ map_find (lit "x") (vars V F st1) = Some v1 /\ map_find (lit "x") (vars V F st2) = Some v2.
Proof.
  intros L1 L2 I1 I2 _; exists (mkState V F [(lit "x", v1)] f), (mkState V F [(lit "x", v2)] f); split; [|split; [|split]].
  - unfold read_command, load, load_arg; change (dollar (lit "a/x.bmp")) with false; change (sanitize (lit "a/x.bmp")) with (lit "a/x.bmp"); change (dollar (lit "a/x.bmp")) with false; cbn [files]; rewrite L1; cbn [need bind]; rewrite I1; reflexivity.
  - unfold read_command, load, load_arg; change (dollar (lit "b/x.dbmp")) with false; change (sanitize (lit "b/x.dbmp")) with (lit "b/x.dbmp"); change (dollar (lit "b/x.dbmp")) with false; cbn [files caught]; rewrite L2; cbn [need bind]; rewrite I2; reflexivity.
  - reflexivity.
  - reflexivity.
Qed.
Print Assumptions C138_refuted.
Example C138_case : parts (lit "out/v1.2/pic.new.bmp") (lit "out/v1.2/") (lit "pic.new") (lit ".bmp") /\ parts (lit ".hidden") [] (lit ".hidden") [] /\ parts (lit "d/..") (lit "d/") (lit "..") [].
Proof.
  assert (D : forall (c : ascii) (l : str), existsb (Ascii.eqb c) l = false -> ~ In c l).
  { intros c l H I; assert (T : existsb (Ascii.eqb c) l = true) by (apply existsb_exists; exists c; split; [exact I | apply Ascii.eqb_refl]); congruence. }
  split; [|split]; (split; [reflexivity|]).
  - split; [right; exists (lit "out/v1.2"); reflexivity|]; split; [apply D; reflexivity|]; right; exists (lit "bmp"); split; [reflexivity|]; split; [apply D; reflexivity|]; split; discriminate.
  - split; [left; reflexivity|]; split; [apply D; reflexivity|]; left; split; [reflexivity|]; right; apply D; reflexivity.
  - split; [right; exists (lit "d"); reflexivity|]; split; [apply D; reflexivity|]; left; split; [reflexivity|]; left; reflexivity.
Qed.

(** ** C139  which file names find again what was written *)
(** the same letters, capital or small *)
Definition folded (a b : str) : Prop := Forall2 (fun c l => c = l \/ 65 <= nat_of_ascii c <= 90 /\ nat_of_ascii l = nat_of_ascii c + 32) a b.
(** a text of small letters and a dot *)
Definition plain (b : str) : Prop := Forall (fun c => ~ 65 <= nat_of_ascii c <= 90) b.
Lemma small_folded a b : plain b -> small a = b <-> folded a b.
Proof.
  unfold small, folded, plain; revert b; induction a as [|c a IH]; intros b Hb; cbn [map].
  - split; [intros <-; constructor | inversion 1; reflexivity].
  - destruct b as [|l b]; [split; [discriminate | inversion 1]|]; inversion Hb as [|? ? Hl Hb']; subst; specialize (IH b Hb').
    assert (B : nat_of_ascii c < 256) by apply nat_ascii_bounded.
    assert (K : ascii_of_nat (to_lower c) = l <-> (c = l \/ 65 <= nat_of_ascii c <= 90 /\ nat_of_ascii l = nat_of_ascii c + 32)).
    { unfold to_lower; destruct (Nat.leb_spec 65 (nat_of_ascii c)), (Nat.leb_spec (nat_of_ascii c) 90); cbn [andb].
      - split; [intros <-; right; split; [lia|]; apply nat_ascii_embedding; lia|].
        intros [->|[_ E]]; [exfalso; apply Hl; lia|]; rewrite <- E; apply ascii_nat_embedding.
      - rewrite ascii_nat_embedding; split; [auto | intros [E|[E _]]; [auto | lia]].
      - rewrite ascii_nat_embedding; split; [auto | intros [E|[E _]]; [auto | lia]].
      - rewrite ascii_nat_embedding; split; [auto | intros [E|[E _]]; [auto | lia]]. }
    split.
    + intros E; injection E as E1 E2; constructor; [apply K, E1 | apply IH, E2].
    + intros H; inversion H; subst; f_equal; [apply K; assumption | apply IH; assumption].
Qed.
(** the names, by their extension, under which an image of a kind can be written and read again *)
Definition good_name (k : kind) (e : str) : Prop :=
  match k with
  | KRgb => e = [] \/ e = lit ".bmp" \/ folded e (lit ".ppm")
  | KDouble => e = lit ".dbmp" \/ folded e (lit ".csv")
  | KHsv => e = lit ".hsv"
  end.
Theorem C139_names : forall k p d s e, parts p d s e -> read_from p = (k, saved_as k p) <-> good_name k e.
Proof.
  intros k p d s e P; destruct (path_parts _ _ _ _ P) as (_ & PE & PB); destruct P as (Ep & _ & _ & _).
  unfold read_from, saved_as; rewrite PE, PB.
  assert (Pl : forall x, x = lit ".ppm" \/ x = lit ".csv" -> plain x) by (intros x [-> | ->]; repeat constructor; cbn; lia).
  assert (Bs : forall x : str, e <> [] -> (d ++ s) ++ x = p <-> e = x).
  { intros x _; rewrite Ep, app_assoc; split; [intros H; apply app_inv_head in H; auto | intros ->; reflexivity]. }
  assert (Sm : forall x, eqs (small e) x = true <-> small e = x) by (intros; apply eqs_eq).
  destruct e as [|c e].
  - cbn [small map]; change (eqs [] ".dbmp"%string) with false; change (eqs [] ".csv"%string) with false; change (eqs [] ".hsv"%string) with false; change (eqs [] ".ppm"%string) with false; cbn [orb].
    destruct k; cbn [good_name].
    + split; [auto | reflexivity].
    + split; [discriminate | intros [H|H]; [discriminate | inversion H]].
    + split; discriminate.
  - set (x := c :: e) in *; assert (NE : x <> []) by discriminate; specialize (fun y => Bs y NE).
    assert (Q : forall y : string, eqs (small x) y = true \/ eqs (small x) y = false /\ small x <> lit y).
    { intros y; destruct (eqs (small x) y) eqn:E; [left; auto | right; split; auto; intros H; rewrite (proj2 (Sm (lit y)) H) in E; discriminate]. }
    assert (X : forall y z : string, eqs (small x) y = true -> eqs (small x) z = true -> lit y = lit z) by (intros y z H1 H2; apply Sm in H1, H2; rewrite <- H1; exact H2).
    assert (F1 : eqs (small x) ".ppm"%string = true <-> folded x (lit ".ppm")) by (rewrite <- small_folded by auto; apply Sm).
    assert (F2 : eqs (small x) ".csv"%string = true <-> folded x (lit ".csv")) by (rewrite <- small_folded by auto; apply Sm).
    clearbody x; clear c e PE.
    assert (W : forall y z : str, eqs (small x) y = true -> x = z -> eqs (small z) y = true) by (intros y z Hy <-; exact Hy).
    assert (W' : forall y z : str, eqs (small x) y = false -> x = z -> eqs (small z) y = false) by (intros y z Hy <-; exact Hy).
    assert (T : forall z, p = (d ++ s) ++ z <-> x = z) by (intros z; rewrite <- Bs; split; auto).
    assert (PR : forall (a b : kind) (y z : str), (a, y) = (b, z) <-> a = b /\ y = z) by (intros; split; [intros E; injection E; auto | intros [-> ->]; reflexivity]).
    destruct (eqs (small x) ".dbmp"%string) eqn:D, (eqs (small x) ".csv"%string) eqn:C, (eqs (small x) ".hsv"%string) eqn:H, (eqs (small x) ".ppm"%string) eqn:M;
      try (exfalso; match goal with A : eqs _ ?y = true, B : eqs _ ?z = true |- _ => apply Sm in A, B; rewrite A in B; discriminate B end);
      cbn [orb]; destruct k; cbn [good_name]; rewrite PR, ?T, <- ?F1, <- ?F2;
      (split; [intros [E1 E2]; try discriminate E1; auto; try (exfalso; discriminate) | intros G]);
      try (repeat (destruct G as [G|G]; [|]); try contradiction; try discriminate; split; auto; exfalso; fail).
    all: exfalso; repeat match type of G with _ \/ _ => destruct G as [G|G] end; try discriminate G; try contradiction; subst x; vm_compute in D, C, H, M; discriminate.
Qed.
Print Assumptions C139_names.

(** files as a table of names; a value of a kind is written to [saved_as], and read back only as that kind *)
Section FileTable.
  Context {V : Type} (kind_of : any V -> option kind).
  Definition table := str -> option (any V).
  Definition table_save (f : table) (p : str) (v : any V) : option table :=
    option_map (fun k => fun n => if eqs n (saved_as k p) then Some v else f n) (kind_of v).
  Definition kind_eqb (a b : kind) : bool := match a, b with KRgb, KRgb | KDouble, KDouble | KHsv, KHsv => true | _, _ => false end.
  Definition table_load (f : table) (p : str) : option (any V) :=
    let (k, n) := read_from p in
    match f n with Some v => match kind_of v with Some k' => if kind_eqb k k' then Some v else None | None => None end | None => None end.
End FileTable.
(** write to a good name and read it again: the same value *)
Theorem C139_round_trip {V} (kind_of : any V -> option kind) is_img x y a p d s e k v (st : state V table) :
  dollar x = true -> dollar y = true -> dollar a = false -> trimmed a p -> dollar p = false -> parts p d s e -> good_name k e ->
  map_find (sanitize (tl x)) (vars _ _ st) = Some v -> kind_of v = Some k -> is_img v = true ->
  exists st1 st2, write_command V table (table_load kind_of) (table_save kind_of) is_img [x; a] st = Ok st1
    /\ read_command V table (table_load kind_of) (table_save kind_of) is_img [a; y] st1 = Ok st2
    /\ map_find (sanitize (tl y)) (vars _ _ st2) = Some v.
Proof.
  intros Dx Dy Da T Dp P G Mx K Im; apply C60_sanitize in T; apply (C139_names k _ _ _ _ P) in G.
  destruct (C138_write (table_load kind_of) (table_save kind_of) is_img x a [] st) as [W _]; rewrite (W Dx v Mx Im); unfold save_arg at 1; rewrite Da, T; unfold table_save at 1; rewrite K; cbn [option_map].
  match goal with |- exists st1 st2, Ok ?s0 = Ok st1 /\ _ => exists s0; destruct (C138_read_to (table_load kind_of) (table_save kind_of) is_img a y [] s0) as [R _]; destruct (R Dy v) as (st2 & E & S2) end.
  - unfold load_arg; rewrite Da, T; cbv zeta; rewrite Dp; cbn [files]; unfold table_load; rewrite G.
    assert (Q : eqs (saved_as k p) (saved_as k p) = true) by (apply eqs_eq; reflexivity); rewrite Q, K; destruct k; reflexivity.
  - exact Im.
  - exists st2; split; [reflexivity|]; split; [exact E | apply S2].
Qed.
Print Assumptions C139_round_trip.
(** for any other extension there is a table in which the image is not found again *)
Theorem C139_refuted {V} (kind_of : any V -> option kind) is_img x y a p d s e k v (vs : list (str * any V)) :
  dollar x = true -> dollar y = true -> dollar a = false -> trimmed a p -> dollar p = false -> parts p d s e -> ~ good_name k e ->
  map_find (sanitize (tl x)) vs = Some v -> kind_of v = Some k -> is_img v = true ->
  exists st1, write_command V table (table_load kind_of) (table_save kind_of) is_img [x; a] (mkState V table vs (fun _ => None)) = Ok st1
    /\ read_command V table (table_load kind_of) (table_save kind_of) is_img [a; y] st1 = Ok st1.
Proof.
  intros Dx Dy Da T Dp P G Mx K Im; apply C60_sanitize in T; rewrite <- (C139_names k _ _ _ _ P) in G.
  destruct (C138_write (table_load kind_of) (table_save kind_of) is_img x a [] (mkState V table vs (fun _ => None))) as [W _]; rewrite (W Dx v Mx Im); unfold save_arg at 1; rewrite Da, T; unfold table_save at 1; rewrite K; cbn [option_map].
  eexists; split; [reflexivity|].
  match goal with |- read_command _ _ ?l ?s _ _ ?st1 = _ => destruct (C138_read_to l s is_img a y [] st1) as [_ R]; apply R; right end.
  unfold load_arg; rewrite Da, T; cbv zeta; rewrite Dp; cbn [files]; unfold table_load; destruct (read_from p) as [k' n] eqn:E.
  destruct (eqs n (saved_as k p)) eqn:Q; [|reflexivity]; apply eqs_eq in Q; subst n; rewrite K; destruct k, k'; try reflexivity; exfalso; apply G; reflexivity.
Qed.
Print Assumptions C139_refuted.
Example C139_case : good_name KDouble (lit ".CSV") /\ ~ good_name KRgb (lit ".png") /\ saved_as KRgb (lit "d/pic.png") = lit "d/pic.bmp" /\ read_from (lit "d/pic.png") = (KRgb, lit "d/pic.png")
  /\ saved_as KDouble (lit "pic") = lit "pic.dbmp" /\ read_from (lit "pic") = (KRgb, lit "pic.bmp").
Proof.
  split; [right; repeat constructor; cbn; lia|]; split; [|repeat split; reflexivity].
  intros [H|[H|H]]; try discriminate; inversion H as [|? ? ? ? _ H']; inversion H' as [|? ? ? ? [Q|[_ Q]] H'']; [|cbn in Q; lia]; inversion H'' as [|? ? ? ? [Q'|[Q' _]] _]; [discriminate | cbn in Q'; lia].
Qed.
