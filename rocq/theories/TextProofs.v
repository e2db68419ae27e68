(** TextProofs.v - lemmas about TextModel. *)
From Coq Require Import ZifyBool ZifyNat Ascii String QArith.
From Verif Require Import Base ImageModel ImageFacts PixelModel PixelProofs TextModel.
Open Scope nat_scope.
Open Scope list_scope.
Ltac Zify.zify_post_hook ::= Z.div_mod_to_equations.

(** ** numbers *)
Definition all_digits (l : text) : Prop := Forall (fun c => is_digit c = true) l.

Lemma is_digit_spec c : is_digit c = true <-> 48 <= c <= 57.
Proof. unfold is_digit; lia. Qed.
Lemma digit_not_space c : is_digit c = true -> is_space c = false.
Proof. unfold is_digit, is_space; lia. Qed.

Lemma dec_fuel_digits fuel n : n < fuel -> all_digits (dec_fuel fuel n) /\ dec_fuel fuel n <> [].
Proof.
  revert n; induction fuel as [|fuel IH]; intros n H; [lia|]; cbn [dec_fuel].
  destruct (Nat.ltb_spec n 10) as [L|L].
  - split; [|discriminate]; constructor; [apply is_digit_spec; lia | constructor].
  - destruct (IH (n / 10)) as [A B]; [lia|]; split.
    + apply Forall_app; split; auto; constructor; [apply is_digit_spec; lia | constructor].
    + intros E; apply app_eq_nil in E; tauto.
Qed.

Lemma dec_digits n : all_digits (dec n).
Proof. apply dec_fuel_digits; lia. Qed.
Lemma dec_nonempty n : dec n <> [].
Proof. apply dec_fuel_digits; lia. Qed.

Lemma digits_app l : all_digits l -> forall acc r, digits acc (l ++ r) = digits (digits acc l) r.
Proof.
  induction 1 as [|c l Hc Hl IH]; intros acc r; cbn [digits app]; auto; rewrite Hc; apply IH.
Qed.

Lemma digits_dec_fuel fuel n : n < fuel -> digits 0 (dec_fuel fuel n) = n.
Proof.
  revert n; induction fuel as [|fuel IH]; intros n H; [lia|]; cbn [dec_fuel].
  destruct (Nat.ltb_spec n 10) as [L|L].
  - cbn [digits]; replace (is_digit (48 + n)) with true by (symmetry; apply is_digit_spec; lia); lia.
  - rewrite digits_app by (apply dec_fuel_digits; lia); rewrite IH by lia; cbn [digits].
    replace (is_digit (48 + n mod 10)) with true by (symmetry; apply is_digit_spec; lia).
    pose proof (Nat.div_mod n 10); lia.
Qed.

Lemma digits_dec n : digits 0 (dec n) = n.
Proof. apply digits_dec_fuel; lia. Qed.

Lemma dec_head n : exists c l, dec n = c :: l /\ is_digit c = true.
Proof.
  pose proof (dec_nonempty n); pose proof (dec_digits n) as D; destruct (dec n) as [|c l]; [tauto|].
  inversion D; subst; eauto.
Qed.

Lemma parse_dec n : parse_number (dec n) = Some (false, n).
Proof.
  unfold parse_number; destruct (dec_head n) as (c & l & E & Hc).
  replace (skip_spaces (dec n)) with (dec n) by (rewrite E; cbn [skip_spaces]; rewrite (digit_not_space c Hc); auto).
  rewrite E; pose proof Hc as Hr; apply is_digit_spec in Hr; unfold minus, plus.
  destruct (Nat.eqb_spec c 45); [lia|]; destruct (Nat.eqb_spec c 43); [lia|].
  rewrite Hc, <- E, digits_dec; reflexivity.
Qed.

Lemma parse_minus_dec n : parse_number (minus :: dec n) = Some (true, n).
Proof.
  unfold parse_number; cbn [skip_spaces]; change (is_space minus) with false; cbv iota.
  rewrite Nat.eqb_refl; destruct (dec_head n) as (c & l & E & Hc); rewrite E, Hc, <- E, digits_dec; reflexivity.
Qed.

Lemma stoull_dec n : fits n -> stoull (dec n) = Ok n.
Proof.
  intros H; unfold stoull; rewrite parse_dec; unfold fits in H.
  destruct (Z.leb_spec two64 (Z.of_nat n)); [lia | reflexivity].
Qed.

Definition is_int (z : Z) : Prop := (- 2 ^ 31 <= z < 2 ^ 31)%Z.

Lemma stoi_dec_z z : is_int z -> stoi (dec_z z) = Ok z.
Proof.
  intros H; unfold is_int in H; unfold stoi, dec_z; destruct (Z.ltb_spec z 0) as [N|P].
  - rewrite parse_minus_dec, Z2Nat.id by lia; cbv zeta; rewrite Z.opp_involutive.
    destruct (Z.ltb_spec z (- 2 ^ 31)); [lia|]; destruct (Z.leb_spec (2 ^ 31) z); [lia|]; reflexivity.
  - rewrite parse_dec, Z2Nat.id by lia; cbv zeta.
    destruct (Z.ltb_spec z (- 2 ^ 31)); [lia|]; destruct (Z.leb_spec (2 ^ 31) z); [lia|]; reflexivity.
Qed.

Lemma extract_int_dec_z z : is_int z -> extract_int (dec_z z) = z.
Proof.
  intros H; unfold is_int in H; unfold extract_int, dec_z; destruct (Z.ltb_spec z 0) as [N|P].
  - rewrite parse_minus_dec, Z2Nat.id by lia; cbv zeta; lia.
  - rewrite parse_dec, Z2Nat.id by lia; cbv zeta; lia.
Qed.

Lemma dec_z_chars z c : In c (dec_z z) -> c = minus \/ 48 <= c <= 57.
Proof.
  assert (D : forall n, In c (dec n) -> 48 <= c <= 57).
  { intros n Hc; pose proof (dec_digits n) as F; unfold all_digits in F; rewrite Forall_forall in F.
    apply is_digit_spec, F, Hc. }
  unfold dec_z; destruct (z <? 0)%Z; [intros [<-|H]; auto|]; intros; right; eauto.
Qed.

Lemma dec_z_nonempty z : dec_z z <> [].
Proof. unfold dec_z; destruct (z <? 0)%Z; [discriminate | apply dec_nonempty]. Qed.

Lemma drop_digits_all l : all_digits l -> drop_digits l = [].
Proof. induction 1 as [|c l Hc Hl IH]; cbn [drop_digits]; auto; rewrite Hc; auto. Qed.

Lemma stod_dec_z z : stod (dec_z z) = Ok (inject_Z z).
Proof.
  unfold stod.
  assert (S : skip_spaces (dec_z z) = dec_z z).
  { pose proof (dec_z_nonempty z) as N; destruct (dec_z z) as [|c l] eqn:E; [tauto|].
    destruct (dec_z_chars z c) as [->|H]; [rewrite E; simpl; auto | reflexivity |].
    cbn [skip_spaces]; replace (is_space c) with false by (unfold is_space; lia); auto. }
  rewrite S; unfold dec_z; destruct (Z.ltb_spec z 0) as [N|P].
  - rewrite Nat.eqb_refl; cbv zeta; rewrite digits_dec, (drop_digits_all _ (dec_digits _)).
    destruct (dec_head (Z.to_nat (- z))) as (c & l & E & _); rewrite E; cbn [length Nat.sub Nat.add Nat.eqb].
    rewrite Z2Nat.id, Z.opp_involutive by lia.
    change (0 - Z.of_nat 0)%Z with 0%Z; cbn [Z.leb Z.compare]; unfold inject_Z; do 2 f_equal; lia.
  - destruct (dec_head (Z.to_nat z)) as (c & l & E & Hc).
    pose proof (dec_digits (Z.to_nat z)) as D; pose proof (digits_dec (Z.to_nat z)) as Ed.
    rewrite E in *; apply is_digit_spec in Hc; unfold minus, plus.
    destruct (Nat.eqb_spec c 45); [lia|]; destruct (Nat.eqb_spec c 43); [lia|].
    cbv zeta; rewrite Ed, (drop_digits_all _ D); cbn [length Nat.sub Nat.add Nat.eqb].
    rewrite Z2Nat.id by lia; change (0 - Z.of_nat 0)%Z with 0%Z; cbn [Z.leb Z.compare]; unfold inject_Z; do 2 f_equal; lia.
Qed.

Lemma print_double_small z : (- 10 ^ 6 < z < 10 ^ 6)%Z -> print_double (inject_Z z) = dec_z z.
Proof.
  intros H; unfold print_double, dec_z, print_g_nat, inject_Z; cbn [Qnum].
  destruct (Z.ltb_spec z 0) as [N|P].
  - destruct (Z.ltb_spec (Z.of_nat (Z.to_nat (- z))) (10 ^ 6)); [reflexivity|lia].
  - destruct (Z.ltb_spec (Z.of_nat (Z.to_nat z)) (10 ^ 6)); [reflexivity|lia].
Qed.

(** ** lines *)
Lemma getlines_piece sep l : ~ In sep l -> forall rest, getlines sep (l ++ sep :: rest) = l :: getlines sep rest.
Proof.
  induction l as [|c l IH]; intros H rest; cbn [getlines app].
  - rewrite Nat.eqb_refl; reflexivity.
  - destruct (Nat.eqb_spec c sep) as [E|N]; [exfalso; apply H; simpl; auto|].
    rewrite IH by (intros HI; apply H; simpl; auto); reflexivity.
Qed.

Lemma getlines_last sep l : ~ In sep l -> l <> [] -> getlines sep l = [l].
Proof.
  induction l as [|c l IH]; intros H N; [tauto|]; cbn [getlines].
  destruct (Nat.eqb_spec c sep) as [E|N']; [exfalso; apply H; simpl; auto|].
  destruct l as [|c' l]; [reflexivity|].
  rewrite IH; [reflexivity | intros HI; apply H; simpl in *; auto | discriminate].
Qed.

Lemma getlines_lines sep ls : Forall (fun l => ~ In sep l) ls ->
  getlines sep (concat (map (fun l => l ++ [sep]) ls)) = ls.
Proof.
  induction 1 as [|l ls H F IH]; cbn [map concat]; auto.
  rewrite <- app_assoc; cbn [app]; rewrite getlines_piece, IH by auto; reflexivity.
Qed.

(** cells separated by single separators *)
Fixpoint join (sep : nat) (ls : list text) : text :=
  match ls with
  | [] => []
  | [l] => l
  | l :: ls' => l ++ sep :: join sep ls'
  end.

Lemma getlines_join sep ls : ls <> [] -> Forall (fun l => ~ In sep l) ls -> (forall l, In l ls -> l <> []) ->
  getlines sep (join sep ls) = ls.
Proof.
  intros N F; induction F as [|l ls H F IH]; intros E; [tauto|].
  destruct ls as [|l' ls].
  - cbn [join]; apply getlines_last; auto; apply E; simpl; auto.
  - cbn [join] in *; rewrite getlines_piece by auto; f_equal; apply IH; [discriminate | intros; apply E; simpl in *; auto].
Qed.

Lemma join_snoc sep ls l : ls <> [] -> join sep (ls ++ [l]) = join sep ls ++ sep :: l.
Proof.
  intros N; induction ls as [|a ls IH]; [tauto|]; destruct ls as [|b ls]; [reflexivity|].
  cbn [app join] in *; rewrite IH by discriminate; rewrite <- app_assoc; reflexivity.
Qed.

Lemma join_chars sep ls c : In c (join sep ls) -> c = sep \/ exists l, In l ls /\ In c l.
Proof.
  induction ls as [|l ls IH]; intros H; [destruct H|].
  destruct ls as [|l' ls]; cbn [join] in *.
  - right; exists l; simpl; auto.
  - apply in_app_or in H as [H|[<-|H]]; auto.
    + right; exists l; simpl; auto.
    + destruct (IH H) as [E|(l0 & H1 & H2)]; auto; right; exists l0; simpl in *; auto.
Qed.

Lemma join_nonempty sep ls : ls <> [] -> (forall l, In l ls -> l <> []) -> join sep ls <> [].
Proof.
  intros N H; destruct ls as [|l ls]; [tauto|].
  assert (l <> []) by (apply H; simpl; auto).
  destruct ls as [|l' ls]; cbn [join]; auto; destruct l; [tauto | discriminate].
Qed.

Section CsvProofs.
  Context {A : Type} (d : A) (print : A -> text) (parse : text -> res A).

  Lemma csv_row_spec im w h f y : Repr im w h f -> y < h ->
    csv_row print im w y = Ok (join comma (map (fun x => print (f x y)) (seq 0 w))).
  Proof.
    intros R Hy; unfold csv_row.
    assert (G : forall k, k <= w -> 
      for_range k (fun x out => let* v := atu im [x; y] in let out := out ++ print v in
        Ok (if x <? w - 1 then out ++ [comma] else out)) [] =
      Ok (join comma (map (fun x => print (f x y)) (seq 0 k)) ++ (if (0 <? k) && (k <? w) then [comma] else []))).
    { induction k as [|k IH]; intros Hk; [reflexivity|].
      unfold for_range in *; rewrite seq_S, for_list_app, IH by lia; cbn [bind for_list Nat.add].
      rewrite (atu_Repr _ _ _ _ _ _ R) by lia; cbn [bind]; cbv zeta; f_equal.
      rewrite map_app; cbn [map].
      replace (k <? w) with true by lia; rewrite andb_true_r.
      replace ((0 <? S k) && (S k <? w)) with (k <? w - 1) by lia.
      destruct (k <? w - 1).
      - destruct k as [|k]; [reflexivity|].
        rewrite join_snoc by (rewrite seq_S, map_app; intros E; apply app_eq_nil in E as [_ E]; discriminate).
        change (0 <? S k) with true; cbv iota; rewrite <- !app_assoc; reflexivity.
      - rewrite app_nil_r; destruct k as [|k]; [reflexivity|].
        rewrite join_snoc by (rewrite seq_S, map_app; intros E; apply app_eq_nil in E as [_ E]; discriminate).
        change (0 <? S k) with true; cbv iota; rewrite <- !app_assoc; reflexivity. }
    rewrite G by lia; destruct (Nat.ltb_spec w w); [lia|]; rewrite andb_false_r, app_nil_r; reflexivity.
  Qed.

  Lemma write_csv_spec s im w h f : Repr im w h f -> sched1_ok s ->
    write_to_csv print s im =
    Ok (concat (map (fun l => l ++ [newline])
          (map (fun y => join comma (map (fun x => print (f x y)) (seq 0 w))) (seq 0 h)))).
  Proof.
    intros R Hs; unfold write_to_csv; rewrite (get_dim_Repr _ _ _ _ R); cbn [Nat.eqb negb].
    rewrite (get_width_Repr _ _ _ _ R), (get_height_Repr _ _ _ _ R); cbn [bind].
    rewrite (fill_ok s h [] _ (fun y => join comma (map (fun x => print (f x y)) (seq 0 w)))) by
      (auto; intros; eapply csv_row_spec; eauto).
    cbn [bind]; set (rows := map _ (seq 0 h)).
    assert (Lr : length rows = h) by (unfold rows; rewrite map_length, seq_length; auto).
    clearbody rows.
    assert (G : forall k, k <= h ->
      for_range k (fun y out => let* r := vget rows y in Ok (out ++ r ++ [newline])) [] =
      Ok (concat (map (fun l => l ++ [newline]) (firstn k rows)))).
    { induction k as [|k IH]; intros Hk; [reflexivity|].
      unfold for_range in *; rewrite seq_S, for_list_app, IH by lia; cbn [bind for_list Nat.add].
      destruct (nth_error_lt rows k) as [r Er]; [lia|].
      rewrite (vget_ok _ _ _ Er); cbn [bind]; f_equal.
      assert (Ef : firstn (S k) rows = firstn k rows ++ [r]).
      { clear -Er; revert rows Er; induction k as [|k IH]; intros [|a rows] Er; simpl in *; try discriminate.
        - injection Er as ->; destruct rows; reflexivity.
        - f_equal; apply IH; auto. }
      rewrite Ef, map_app, concat_app; cbn [map concat]; rewrite app_nil_r; reflexivity. }
    rewrite G, firstn_all2 by lia; reflexivity.
  Qed.
  Lemma parse_cells_loop w y f : (forall x, x < w -> parse (print (f x y)) = Ok (f x y)) ->
    forall n x im, x + n = w ->
    parse_cells parse im w y x (map (fun x => print (f x y)) (seq x n)) =
    for_list (seq x n) (fun x im => atu_set im [x; y] (f x y)) im.
  Proof.
    intros HP; induction n as [|n IH]; intros x im E; [reflexivity|].
    cbn [seq map parse_cells for_list]; replace (x <? w) with true by lia.
    rewrite HP by lia; cbn [bind]; destruct (atu_set im [x; y] (f x y)); cbn [bind]; auto; apply IH; lia.
  Qed.

  Lemma csv_round_trip s s' im w h f : Repr im w h f -> sched1_ok s -> sched1_ok s' -> 0 < w -> 0 < h ->
    (forall x y, x < w -> y < h -> parse (print (f x y)) = Ok (f x y) /\ print (f x y) <> [] /\
                                   ~ In comma (print (f x y)) /\ ~ In newline (print (f x y))) ->
    exists file im', write_to_csv print s im = Ok file /\ read_from_csv d parse s' file = Ok im' /\ Repr im' w h f.
  Proof.
    intros R Hs Hs' Pw Ph H; rewrite (write_csv_spec s im w h f R Hs); eexists.
    set (row := fun y => join comma (map (fun x => print (f x y)) (seq 0 w))).
    change (map (fun y => join comma (map (fun x => print (f x y)) (seq 0 w))) (seq 0 h)) with (map row (seq 0 h)).
    assert (Hrow : forall y, y < h -> row y <> [] /\ ~ In newline (row y) /\
                     getlines comma (row y) = map (fun x => print (f x y)) (seq 0 w)).
    { intros y Hy; unfold row.
      assert (N : map (fun x => print (f x y)) (seq 0 w) <> []) by (destruct w; [lia | discriminate]).
      assert (Hc : forall l, In l (map (fun x => print (f x y)) (seq 0 w)) -> l <> [] /\ ~ In comma l /\ ~ In newline l).
      { intros l Hl; apply in_map_iff in Hl as (x & <- & Hx); apply in_seq0 in Hx; apply (H x y); auto. }
      repeat split.
      - apply join_nonempty; auto; intros l Hl; apply Hc; auto.
      - intros Hn; apply join_chars in Hn as [E|(l & Hl & Hn)]; [discriminate E | eapply Hc; eauto].
      - apply getlines_join; auto; [apply Forall_forall; intros; apply Hc; auto | intros; apply Hc; auto]. }
    assert (El : filter (fun l => negb (length l =? 0)) (getlines newline (concat (map (fun l => l ++ [newline]) (map row (seq 0 h))))) =
                 map row (seq 0 h)).
    { rewrite getlines_lines.
      - assert (G : forall k n, k + n <= h -> filter (fun l => negb (length l =? 0)) (map row (seq k n)) = map row (seq k n)).
        { intros k n; revert k; induction n as [|n IH]; intros k Hk; [reflexivity|]; cbn [seq map filter].
          destruct (Hrow k) as (Nr & _); [lia|].
          replace (negb (length (row k) =? 0)) with true by (destruct (row k); [tauto | reflexivity]).
          rewrite IH by lia; reflexivity. }
        apply G; lia.
      - apply Forall_forall; intros l Hl; apply in_map_iff in Hl as (y & <- & Hy); apply in_seq0 in Hy; apply Hrow; auto. }
    unfold read_from_csv; rewrite El; cbv zeta.
    assert (E0 : map row (seq 0 h) = row 0 :: map row (seq 1 (h - 1))) by (destruct h; [lia|]; cbn [seq map]; do 3 f_equal; lia).
    destruct (map row (seq 0 h)) as [|first rest] eqn:Em; [discriminate|].
    assert (first = row 0) as -> by congruence; rewrite <- Em; destruct (Hrow 0) as (_ & _ & ->); [lia|].
    rewrite !map_length, !seq_length.
    destruct (overlay_all (pairs (s' h) (fun _ => seq 0 w)) (fun p im => atu_set im [snd p; fst p] (f (snd p) (fst p)))
                (fun p => snd p) (fun p => fst p) (image_sizes d [w; h]) w h f) as (im' & E' & R').
    - reflexivity.
    - apply Repr_sizes.
    - intros [y x] o Hp D L; apply in_pairs in Hp as [Hy Hx]; cbn [fst snd] in *.
      apply sched1_in in Hy; auto; apply in_seq0 in Hx; apply (atu_set2_ok o w h); auto.
    - intros [y x] Hp; apply in_pairs in Hp as [Hy Hx]; cbn [fst snd] in *.
      apply sched1_in in Hy; auto; apply in_seq0 in Hx; auto.
    - intros x y Hx Hy; exists (y, x); rewrite in_pairs; cbn [fst snd]; rewrite in_seq0, sched1_in by auto; auto.
    - exists im'; split; [reflexivity|]; split; auto; rewrite <- E'.
      rewrite <- (for_list_nested (s' h) (fun _ => seq 0 w) (fun y x im => atu_set im [x; y] (f x y))).
      apply for_list_ext; intros y o Hy; apply sched1_in in Hy; auto.
      rewrite (vget_ok _ y (row y)) by (rewrite nth_error_map, nth_error_seq by auto; reflexivity).
      cbn [bind]; destruct (Hrow y Hy) as (_ & _ & ->).
      apply parse_cells_loop; [|lia]; intros x Hx; apply H; auto.
  Qed.
End CsvProofs.

(** ** PNM tokens *)
Definition has_space (s : text) : Prop := exists c, In c s /\ is_space c = true.
Definition is_token (t : text) : Prop :=
  t <> [] /\ (forall c, In c t -> is_space c = false) /\ hd 0 t <> hash.
(** [s] is empty or starts with a space *)
Definition breaks (s : text) : Prop := match s with [] => True | c :: _ => is_space c = true end.

Lemma take_token_app t s : (forall c, In c t -> is_space c = false) -> breaks s -> take_token (t ++ s) = (t, s).
Proof.
  intros H B; induction t as [|c t IH]; cbn [take_token app].
  - destruct s as [|c s]; cbn [take_token]; auto; simpl in B; rewrite B; auto.
  - rewrite H by (simpl; auto); rewrite IH by (intros; apply H; simpl; auto); reflexivity.
Qed.

Lemma take_token_split s t r : take_token s = (t, r) -> s = t ++ r.
Proof.
  revert t r; induction s as [|c s IH]; intros t r E; cbn [take_token] in E; [injection E as <- <-; auto|].
  destruct (is_space c); [injection E as <- <-; auto|].
  destruct (take_token s) as [t' r'] eqn:E'; injection E as <- <-; cbn [app]; f_equal; auto.
Qed.

Lemma skip_spaces_length s : length (skip_spaces s) <= length s.
Proof. induction s as [|c s IH]; cbn [skip_spaces]; auto; destruct (is_space c); cbn [length] in *; lia. Qed.
Lemma skip_line_length s : length (skip_line s) <= length s.
Proof. induction s as [|c s IH]; cbn [skip_line]; auto; destruct (c =? newline); cbn [length] in *; lia. Qed.

Lemma read_token_fuel_irrelevant : forall f1 f2 s, length s < f1 -> length s < f2 ->
  read_token_fuel f1 s = read_token_fuel f2 s.
Proof.
  induction f1 as [|f1 IH]; intros f2 s H1 H2; [lia|]; destruct f2 as [|f2]; [lia|]; cbn [read_token_fuel].
  destruct (take_token (skip_spaces s)) as [t r] eqn:E.
  destruct t as [|c t]; auto; destruct (c =? hash); auto.
  assert (length (skip_line r) < length s).
  { apply take_token_split in E; apply (f_equal (@length nat)) in E; rewrite app_length in E; cbn [length] in E.
    pose proof (skip_spaces_length s); pose proof (skip_line_length r); lia. }
  apply IH; lia.
Qed.

(** one turn of the loop of read_pnm_token *)
Lemma read_token_step s :
  read_token s = let '(t, r) := take_token (skip_spaces s) in
                 match t with
                 | [] => ([], [])
                 | c :: _ => if c =? hash then read_token (skip_line r) else (t, r)
                 end.
Proof.
  unfold read_token at 1; cbn [read_token_fuel].
  destruct (take_token (skip_spaces s)) as [t r] eqn:E.
  destruct t as [|c t]; auto; destruct (c =? hash); auto.
  assert (length (skip_line r) < length s).
  { apply take_token_split in E; apply (f_equal (@length nat)) in E; rewrite app_length in E; cbn [length] in E.
    pose proof (skip_spaces_length s); pose proof (skip_line_length r); lia. }
  apply read_token_fuel_irrelevant; lia.
Qed.

(** ** layouts: the specification of a token stream with white space and comments *)
Inductive gap : text -> Prop :=
| gap_nil : gap []
| gap_space c g : is_space c = true -> gap g -> gap (c :: g)
| gap_comment b g : ~ In newline b -> gap g -> gap (hash :: b ++ newline :: g).

Inductive layout : list text -> text -> Prop :=
| layout_end g : gap g -> layout [] g
| layout_open g b : gap g -> ~ In newline b -> layout [] (g ++ hash :: b)
| layout_token g t ts s : gap g -> is_token t -> breaks s -> layout ts s -> layout (t :: ts) (g ++ t ++ s).

Lemma skip_line_after b g : ~ In newline b -> forall t r, take_token (b ++ newline :: g) = (t, r) -> skip_line r = g.
Proof.
  induction b as [|c b IH]; intros H t r E; cbn [app take_token] in E.
  - change (is_space newline) with true in E; injection E as <- <-; cbn [skip_line]; rewrite Nat.eqb_refl; auto.
  - destruct (is_space c) eqn:Ec.
    + injection E as <- <-; clear IH Ec.
      assert (G : forall l, ~ In newline l -> skip_line (l ++ newline :: g) = g).
      { induction l as [|a l IHl]; intros Hl; cbn [app skip_line]; [rewrite Nat.eqb_refl; auto|].
        destruct (Nat.eqb_spec a newline) as [Ea|_]; [exfalso; apply Hl; simpl; auto|].
        apply IHl; intros Hi; apply Hl; simpl; auto. }
      apply (G (c :: b)); auto.
    + destruct (take_token (b ++ newline :: g)) as [t' r'] eqn:E'; injection E as <- <-.
      eapply IH; eauto; intros Hi; apply H; simpl; auto.
Qed.

Lemma skip_line_none b : ~ In newline b -> forall t r, take_token b = (t, r) -> skip_line r = [].
Proof.
  assert (G : forall l, ~ In newline l -> skip_line l = []).
  { induction l as [|a l IHl]; intros Hl; cbn [skip_line]; auto.
    destruct (Nat.eqb_spec a newline) as [Ea|_]; [exfalso; apply Hl; simpl; auto|].
    apply IHl; intros Hi; apply Hl; simpl; auto. }
  intros H t r E; apply take_token_split in E; apply G; intros Hi; apply H; rewrite E; apply in_or_app; auto.
Qed.

Lemma read_token_gap g s : gap g -> read_token (g ++ s) = read_token s.
Proof.
  induction 1 as [|c g Hc Hg IH|b g Hb Hg IH]; cbn [app]; auto.
  - rewrite <- IH, !(read_token_step (_ ++ s)), (read_token_step (c :: g ++ s)).
    cbn [skip_spaces]; rewrite Hc; reflexivity.
  - rewrite read_token_step; cbn [skip_spaces]; change (is_space hash) with false; cbv iota.
    cbn [take_token]; change (is_space hash) with false; cbv iota.
    rewrite <- app_assoc; cbn [app].
    destruct (take_token (b ++ newline :: g ++ s)) as [t r] eqn:E.
    rewrite Nat.eqb_refl, (skip_line_after b (g ++ s) Hb t r E); exact IH.
Qed.

Lemma read_token_nil : read_token [] = ([], []).
Proof. reflexivity. Qed.

Lemma read_layout_nil s : layout [] s -> read_token s = ([], []).
Proof.
  inversion 1 as [g Hg|g b Hg Hb|]; subst.
  - rewrite <- (app_nil_r s), read_token_gap by auto; reflexivity.
  - rewrite read_token_gap by auto; rewrite read_token_step; cbn [skip_spaces take_token]; change (is_space hash) with false; cbv iota.
    cbn [take_token]; change (is_space hash) with false; cbv iota.
    destruct (take_token b) as [t r] eqn:E; rewrite Nat.eqb_refl, (skip_line_none b Hb t r E); reflexivity.
Qed.

Lemma read_layout_cons t ts s : layout (t :: ts) s -> exists r, read_token s = (t, r) /\ layout ts r.
Proof.
  inversion 1 as [| |g t' ts' r Hg (Nt & Ht & Hh) Hb Hl]; subst; exists r; split; auto.
  rewrite read_token_gap by auto; rewrite read_token_step.
  assert (E : skip_spaces (t ++ r) = t ++ r).
  { destruct t as [|c t]; [tauto|]; cbn [app skip_spaces]; rewrite Ht by (simpl; auto); reflexivity. }
  rewrite E, take_token_app by auto; destruct t as [|c t]; [tauto|].
  cbn [hd] in Hh; destruct (Nat.eqb_spec c hash); [tauto | reflexivity].
Qed.

Lemma read_samples_layout ts vs : Forall2 (fun t v => stoi t = Ok v) ts vs -> forall rest s,
  layout (ts ++ rest) s -> exists r, read_samples (length ts) s = Ok vs /\ layout rest r.
Proof.
  induction 1 as [|t v ts vs Ht H IH]; intros rest s L; cbn [app] in L.
  - exists s; auto.
  - apply read_layout_cons in L as (r & E & L); destruct (IH rest r L) as (r' & E' & L').
    exists r'; split; auto; cbn [length read_samples]; rewrite E.
    destruct t as [|c t]; [discriminate Ht|]; rewrite Ht; cbn [bind]; rewrite E'; reflexivity.
Qed.

Lemma read_samples_truncated ts vs : Forall2 (fun t v => stoi t = Ok v) ts vs -> forall n s,
  layout ts s -> length ts < n -> read_samples n s = Throw RuntimeError.
Proof.
  induction 1 as [|t v ts vs Ht H IH]; intros n s L Hn; (destruct n as [|n]; [cbn [length] in Hn; lia|]); cbn [read_samples].
  - rewrite (read_layout_nil s L); reflexivity.
  - apply read_layout_cons in L as (r & E & L); rewrite E.
    destruct t as [|c t]; [discriminate Ht|]; rewrite Ht; cbn [bind].
    rewrite (IH n r L) by (cbn [length] in Hn; lia); reflexivity.
Qed.

Lemma text_eqb_refl t : text_eqb t t = true.
Proof. unfold text_eqb; destruct (list_eq_dec Nat.eq_dec t t); auto. Qed.

Lemma wn_small n : fits n -> wn (Z.of_nat n) = n.
Proof. intros H; unfold wn, w64, fits in *; rewrite Z.mod_small by lia; lia. Qed.

(** ** the pixel loop of the reader *)
Lemma process_loop s raw magic shift w h px : sched1_ok s -> fits (w * h) ->
  (forall i, i < w * h -> ppm_pixel raw magic shift i = Ok (px i)) ->
  exists im, for_list (s (w * h)) (process_ppm raw magic shift w h) (mkImage [w; h] (repeat [0; 0; 0]%Z (w * h))) = Ok im /\
    Repr im w h (fun x y => px ((h - 1 - y) * w + x)).
Proof.
  intros Hs F Hp.
  destruct (Nat.eq_dec w 0) as [W0|W0].
  { subst w; cbn [Nat.mul] in *.
    assert (E : s 0 = []) by (apply Permutation_nil, Permutation_sym, Hs); rewrite E.
    eexists; split; [reflexivity|]; repeat split; auto; intros; lia. }
  apply (overlay_all (s (w * h)) _ (fun i => i mod w) (fun i => h - 1 - i / w)).
  - reflexivity.
  - cbn [pix]; apply repeat_length.
  - intros i o Hi D L; apply sched1_in in Hi; auto.
    assert (Hq : i / w < h) by (apply Nat.div_lt_upper_bound; auto).
    pose proof (Nat.mod_upper_bound i w W0) as Hm; pose proof (Nat.div_mod i w W0) as Hdm.
    unfold process_ppm; destruct (Nat.eqb_spec w 0); [tauto|]; rewrite Hp by auto; cbn [bind].
    set (q := i / w) in *; set (r := i mod w) in *; clearbody q r.
    assert (1 * h <= w * h) by (apply Nat.mul_le_mono_r; lia); assert (fits h) by (unfold fits in *; lia).
    rewrite (usub_le h 1) by (auto; lia); rewrite usub_le by (unfold fits in *; lia).
    rewrite (atu_set2_ok o w h) by (auto; lia).
    do 3 f_equal; replace (h - 1 - (h - 1 - q)) with q by lia; lia.
  - intros i Hi; apply sched1_in in Hi; auto.
    assert (Hq : i / w < h) by (apply Nat.div_lt_upper_bound; auto).
    split; [apply Nat.mod_upper_bound; auto |]; set (q := i / w) in *; clearbody q; lia.
  - intros x y Hx Hy; exists ((h - 1 - y) * w + x); rewrite sched1_in by auto.
    rewrite (Nat.add_comm _ x), Nat.mod_add, Nat.div_add, Nat.mod_small, Nat.div_small by auto.
    assert ((h - 1 - y) * w + w <= h * w) by nia; split; [lia|]; lia.
Qed.

Lemma shift_spec v sh : (Z.abs sh < 32)%Z -> shift_color_value v sh = Ok (Z.shiftl v sh mod 256)%Z.
Proof.
  intros H; unfold shift_color_value; destruct (Z.leb_spec 32 (Z.abs sh)); [lia|].
  destruct (Z.leb_spec 0 sh).
  - rewrite Z.shiftl_mul_pow2 by lia; reflexivity.
  - rewrite Z.shiftl_div_pow2 by lia; reflexivity.
Qed.

Definition pnm_magic (t : text) : Prop := t = P2 \/ t = P3.

(** the specification of a pixel: sample or samples number k, scaled *)
Definition pnm_px (magic : text) (sh : Z) (vs : list Z) (k : nat) : list Z :=
  if text_eqb magic P3
  then map (fun c => Z.shiftl (nth (3 * k + c) vs 0%Z) sh mod 256)%Z [0; 1; 2]
  else repeat (Z.shiftl (nth k vs 0%Z) sh mod 256)%Z 3.

Lemma vget_nth_z (l : list Z) k : k < length l -> vget l k = Ok (nth k l 0%Z).
Proof. intros H; apply vget_ok, nth_error_nth'; auto. Qed.

Lemma ppm_pixel_spec magic vs sh n i : pnm_magic magic -> (Z.abs sh < 32)%Z ->
  length vs = (if text_eqb magic P3 then 3 * n else n) -> i < n ->
  ppm_pixel vs magic sh i = Ok (pnm_px magic sh vs i).
Proof.
  intros [->| ->] Hs L Hi; unfold ppm_pixel, pnm_px.
  - change (text_eqb P2 P1) with false; change (text_eqb P2 P2) with true; change (text_eqb P2 P3) with false in *; cbv iota in *.
    rewrite vget_nth_z by lia; cbn [bind]; rewrite shift_spec by auto; reflexivity.
  - change (text_eqb P3 P1) with false; change (text_eqb P3 P2) with false; change (text_eqb P3 P3) with true in *; cbv iota in *.
    rewrite !vget_nth_z by lia; cbn [bind]; rewrite !shift_spec by auto; cbn [bind map].
    rewrite (Nat.mul_comm i 3), Nat.add_0_r; reflexivity.
Qed.

Lemma Forall2_len {A B} (P : A -> B -> Prop) l m : Forall2 P l m -> length l = length m.
Proof. induction 1; cbn [length]; auto. Qed.

Definition sample_count (magic : text) (w h : nat) : nat := if text_eqb magic P3 then 3 * (w * h) else w * h.

Lemma pnm_read_spec s cap outbits magic tw th tm ts rest w h m vs file :
  sched1_ok s -> pnm_magic magic -> layout (magic :: tw :: th :: tm :: ts ++ rest) file ->
  stoull tw = Ok w -> stoull th = Ok h -> stoi tm = Ok m -> Forall2 (fun t v => stoi t = Ok v) ts vs ->
  length vs = sample_count magic w h -> (0 <= m < 2 ^ 31 - 1)%Z -> (Z.abs (outbits - Z.log2 (m + 1)) < 32)%Z ->
  fits (3 * (w * h)) -> sample_count magic w h <= cap ->
  exists im, pnm_read s cap outbits file = Ok im /\
    Repr im w h (fun x y => pnm_px magic (outbits - Z.log2 (m + 1)) vs ((h - 1 - y) * w + x)).
Proof.
  intros Hs HM L Ew Eh Em HV LV Bm Bs F HC; unfold pnm_read.
  apply read_layout_cons in L as (r0 & -> & L).
  assert (EM : negb (text_eqb magic P1 || text_eqb magic P2 || text_eqb magic P3) = false) by (destruct HM as [->| ->]; reflexivity).
  assert (E1 : text_eqb magic P1 = false) by (destruct HM as [->| ->]; reflexivity).
  rewrite EM, E1.
  apply read_layout_cons in L as (r1 & -> & L); rewrite Ew; cbn [bind].
  apply read_layout_cons in L as (r2 & -> & L); rewrite Eh; cbn [bind].
  apply read_layout_cons in L as (r3 & -> & L); rewrite Em; cbn [bind].
  destruct (Z.leb_spec m (-1)); [lia|]; destruct (Z.eqb_spec m (2 ^ 31 - 1)); [lia|]; cbn [orb].
  assert (F1 : fits (w * h)) by (unfold fits in *; lia).
  rewrite <- Nat2Z.inj_mul, (wn_small (w * h)) by auto.
  replace (Z.of_nat (w * h) * 3)%Z with (Z.of_nat (3 * (w * h))) by lia; rewrite (wn_small (3 * (w * h))) by auto.
  change (if text_eqb magic P3 then 3 * (w * h) else w * h) with (sample_count magic w h).
  destruct (Nat.ltb_spec cap (sample_count magic w h)); [lia|].
  destruct (read_samples_layout ts vs HV rest r3 L) as (r4 & E4 & _).
  assert (LT : length ts = length vs) by (eapply Forall2_len; eauto).
  rewrite LT, LV in E4; rewrite E4; cbn [bind].
  destruct (Nat.ltb_spec cap (w * h)) as [C|C].
  { unfold sample_count in *; destruct (text_eqb magic P3); lia. }
  apply process_loop; auto; intros i Hi; apply (ppm_pixel_spec magic vs _ (w * h)); auto.
Qed.

Lemma pnm_read_truncated s cap outbits magic tw th tm ts w h m vs file :
  pnm_magic magic -> layout (magic :: tw :: th :: tm :: ts) file ->
  stoull tw = Ok w -> stoull th = Ok h -> stoi tm = Ok m -> Forall2 (fun t v => stoi t = Ok v) ts vs ->
  length vs < sample_count magic w h -> (0 <= m < 2 ^ 31 - 1)%Z -> fits (3 * (w * h)) -> sample_count magic w h <= cap ->
  pnm_read s cap outbits file = Throw RuntimeError.
Proof.
  intros HM L Ew Eh Em HV LV Bm F HC; unfold pnm_read.
  apply read_layout_cons in L as (r0 & -> & L).
  assert (EM : negb (text_eqb magic P1 || text_eqb magic P2 || text_eqb magic P3) = false) by (destruct HM as [->| ->]; reflexivity).
  assert (E1 : text_eqb magic P1 = false) by (destruct HM as [->| ->]; reflexivity).
  rewrite EM, E1.
  apply read_layout_cons in L as (r1 & -> & L); rewrite Ew; cbn [bind].
  apply read_layout_cons in L as (r2 & -> & L); rewrite Eh; cbn [bind].
  apply read_layout_cons in L as (r3 & -> & L); rewrite Em; cbn [bind].
  destruct (Z.leb_spec m (-1)); [lia|]; destruct (Z.eqb_spec m (2 ^ 31 - 1)); [lia|]; cbn [orb].
  assert (F1 : fits (w * h)) by (unfold fits in *; lia).
  rewrite <- Nat2Z.inj_mul, (wn_small (w * h)) by auto.
  replace (Z.of_nat (w * h) * 3)%Z with (Z.of_nat (3 * (w * h))) by lia; rewrite (wn_small (3 * (w * h))) by auto.
  change (if text_eqb magic P3 then 3 * (w * h) else w * h) with (sample_count magic w h).
  destruct (Nat.ltb_spec cap (sample_count magic w h)); [lia|].
  assert (LT : length ts = length vs) by (eapply Forall2_len; eauto).
  rewrite (read_samples_truncated ts vs HV) by (auto; lia); reflexivity.
Qed.

(** ** the writer *)
Lemma append_loop {I} (l : list I) (T : I -> res text) (t : I -> text) : (forall i, In i l -> T i = Ok (t i)) ->
  forall out, for_list l (fun i out => let* x := T i in Ok (out ++ x)) out = Ok (out ++ concat (map t l)).
Proof.
  induction l as [|i l IH]; intros H out; cbn [for_list map concat]; [rewrite app_nil_r; auto|].
  rewrite H by (simpl; auto); cbn [bind]; rewrite IH by (intros; apply H; simpl; auto); rewrite <- app_assoc; reflexivity.
Qed.

Lemma grid_seq h w : grid h w = map (fun i => (i / w, i mod w)) (seq 0 (h * w)).
Proof.
  induction h as [|h IH]; [reflexivity|].
  destruct (Nat.eq_dec w 0) as [W0|W0].
  { subst; rewrite Nat.mul_0_r; unfold grid, pairs; cbn [seq map]; induction (seq 1 h); auto. }
  cbn [Nat.mul]; rewrite (Nat.add_comm w), seq_app, map_app, <- IH; cbn [Nat.add].
  unfold grid at 1, pairs; rewrite seq_S, flat_map_app; cbn [flat_map Nat.add]; rewrite app_nil_r; f_equal.
  apply nth_error_ext_len; [rewrite !map_length, !seq_length; auto|].
  intros k Hk; rewrite map_length, seq_length in Hk.
  rewrite !nth_error_map, nth_error_seq by auto; cbn [option_map].
  replace (nth_error (seq (h * w) w) k) with (Some (h * w + k)).
  - cbn [option_map Nat.add]; rewrite (Nat.add_comm _ k), Nat.div_add, Nat.mod_add, Nat.div_small, Nat.mod_small by auto; reflexivity.
  - symmetry; rewrite nth_error_nth' with (d := 0) by (rewrite seq_length; auto); rewrite seq_nth by auto; reflexivity.
Qed.

Lemma layout_space c ts s : is_space c = true -> layout ts s -> layout ts (c :: s).
Proof.
  intros Hc L; inversion L as [g Hg|g b Hg Hb|g t ts' r Hg Ht Hb Hl]; subst.
  - apply layout_end, gap_space; auto.
  - apply (layout_open (c :: g) b); auto; apply gap_space; auto.
  - apply (layout_token (c :: g) t ts' r); auto; apply gap_space; auto.
Qed.

Lemma layout_sep c t ts s : is_space c = true -> is_token t -> layout ts s -> layout (t :: ts) (t ++ c :: s).
Proof.
  intros Hc Ht L; apply (layout_token [] t ts (c :: s)); [constructor | auto | exact Hc | apply layout_space; auto].
Qed.

Lemma dec_z_token z : is_token (dec_z z).
Proof.
  split; [apply dec_z_nonempty|]; split.
  - intros c Hc; apply dec_z_chars in Hc as [->|Hc]; [reflexivity | unfold is_space; lia].
  - pose proof (dec_z_nonempty z); destruct (dec_z z) as [|c l] eqn:E; [tauto|]; cbn [hd].
    destruct (dec_z_chars z c) as [->|Hc]; [rewrite E; simpl; auto | discriminate | unfold hash; lia].
Qed.

Lemma dec_token n : is_token (dec n).
Proof.
  pose proof (dec_z_token (Z.of_nat n)) as H; unfold dec_z in H.
  destruct (Z.ltb_spec (Z.of_nat n) 0); [lia|]; rewrite Nat2Z.id in H; exact H.
Qed.

Lemma magic_token magic : pnm_magic magic -> is_token magic.
Proof.
  intros [->| ->]; (split; [discriminate|split; [|discriminate]]);
    intros c Hc; cbn in Hc; repeat (destruct Hc as [<-|Hc]; [reflexivity|]); destruct Hc.
Qed.

(** the samples written for pixel [p] *)
Definition pnm_samples (magic : text) (p : list Z) : list Z := if text_eqb magic P3 then p else firstn 1 p.

Lemma pnm_write_layout im w h f magic m : Repr im w h f -> fits h -> pnm_magic magic ->
  (forall x y, x < w -> y < h -> length (f x y) = 3) ->
  exists file, pnm_write im magic m = Ok file /\
    layout (magic :: dec w :: dec h :: dec_z m ::
            map dec_z (concat (map (fun i => pnm_samples magic (f (i mod w) (h - 1 - i / w))) (seq 0 (h * w))))) file.
Proof.
  intros R Fh HM H3; unfold pnm_write.
  assert (EM : negb (text_eqb magic P1 || text_eqb magic P2 || text_eqb magic P3) = false) by (destruct HM as [->| ->]; reflexivity).
  assert (E1 : text_eqb magic P1 = false) by (destruct HM as [->| ->]; reflexivity).
  rewrite EM, E1, (get_width_Repr _ _ _ _ R), (get_height_Repr _ _ _ _ R); cbn [bind].
  set (hd := magic ++ _).
  unfold for_range.
  rewrite (for_list_nested (seq 0 h) (fun _ => seq 0 w)
             (fun y x out => let* px := atu im [x; usub (usub h 1) y] in let* t := pnm_pixel magic px in Ok (out ++ t))).
  change (pairs (seq 0 h) (fun _ => seq 0 w)) with (grid h w); rewrite grid_seq, for_list_map.
  set (pt := fun i => f (i mod w) (h - 1 - i / w)).
  set (tt := fun i => if text_eqb magic P3
                      then dec_z (nth 0 (pt i) 0%Z) ++ [32] ++ dec_z (nth 1 (pt i) 0%Z) ++ [32] ++ dec_z (nth 2 (pt i) 0%Z) ++ [newline]
                      else dec_z (nth 0 (pt i) 0%Z) ++ [newline]).
  assert (HB : forall i, i < h * w -> i mod w < w /\ h - 1 - i / w < h /\ i / w < h).
  { intros i Hi; assert (W0 : w <> 0) by (intros W0; rewrite W0, Nat.mul_0_r in Hi; inversion Hi).
    pose proof (Nat.mod_upper_bound i w W0) as Hm.
    assert (Hq : i / w < h) by (apply Nat.div_lt_upper_bound; auto; rewrite Nat.mul_comm; auto).
    set (q := i / w) in *; set (r := i mod w) in *; clearbody q r; lia. }
  assert (L3 : forall i, i < h * w -> length (pt i) = 3) by (intros i Hi; destruct (HB i Hi); apply H3; tauto).
  eexists; split.
  - rewrite <- (append_loop (seq 0 (h * w)) (fun i => Ok (tt i)) tt (fun i _ => eq_refl) hd).
    apply for_list_ext; intros i out Hi; apply in_seq0 in Hi; cbn [fst snd]; destruct (HB i Hi) as (Hx & Hy & Hq).
    assert (Eu : usub (usub h 1) (i / w) = h - 1 - i / w).
    { clear -Hq Fh; set (q := i / w) in *; clearbody q.
      rewrite (usub_le h 1) by (auto; lia); rewrite usub_le by (unfold fits in *; lia); reflexivity. }
    rewrite Eu, (atu_Repr _ _ _ _ _ _ R) by auto; cbn [bind]; fold (pt i).
    pose proof (L3 i Hi) as Hl; unfold tt, pnm_pixel; rewrite E1.
    destruct HM as [->| ->].
    + change (text_eqb P2 P2) with true; change (text_eqb P2 P3) with false; cbv iota.
      rewrite vget_nth_z by lia; reflexivity.
    + change (text_eqb P3 P2) with false; change (text_eqb P3 P3) with true; cbv iota.
      rewrite !vget_nth_z by lia; reflexivity.
  - assert (LB : forall l, (forall i, In i l -> i < h * w) ->
               layout (map dec_z (concat (map (fun i => pnm_samples magic (pt i)) l))) (concat (map tt l))).
    { induction l as [|i l IH]; intros Hl; cbn [map concat]; [apply layout_end; constructor|].
      assert (IH' : layout (map dec_z (concat (map (fun i => pnm_samples magic (pt i)) l))) (concat (map tt l)))
        by (apply IH; intros; apply Hl; simpl; auto).
      assert (Hi : i < h * w) by (apply Hl; simpl; auto).
      pose proof (L3 i Hi) as Hl3; apply length3 in Hl3 as (r & g & b & Ep).
      rewrite map_app; unfold tt at 1, pnm_samples at 1; rewrite Ep; destruct (text_eqb magic P3).
      - cbn [map app nth]; rewrite <- !app_assoc; cbn [app]; rewrite <- !app_assoc; cbn [app]; rewrite <- !app_assoc; cbn [app].
        do 3 (apply layout_sep; [reflexivity | apply dec_z_token |]); exact IH'.
      - cbn [map app nth firstn]; rewrite <- !app_assoc; cbn [app].
        apply layout_sep; [reflexivity | apply dec_z_token | exact IH']. }
    unfold hd; repeat (rewrite <- !app_assoc; cbn [app]).
    apply layout_sep; [reflexivity | apply magic_token; auto |].
    apply layout_sep; [reflexivity | apply dec_token |].
    apply layout_sep; [reflexivity | apply dec_token |].
    apply layout_sep; [reflexivity | apply dec_z_token |].
    apply LB; intros i Hi; apply in_seq0 in Hi; auto.
Qed.

Lemma nth_concat_const {A} (k : nat) (ls : list (list A)) d : Forall (fun l => length l = k) ls -> forall i c, c < k ->
  nth (k * i + c) (concat ls) d = nth c (nth i ls []) d.
Proof.
  induction 1 as [|l ls Hl H IH]; intros i c Hc; cbn [concat].
  - destruct (k * i + c), i, c; reflexivity.
  - destruct i as [|i].
    + rewrite Nat.mul_0_r; cbn [Nat.add nth]; apply app_nth1; lia.
    + rewrite app_nth2 by nia; cbn [nth]; rewrite <- IH by auto; f_equal; nia.
Qed.

Lemma concat_const_length {A} (k : nat) (ls : list (list A)) : Forall (fun l => length l = k) ls ->
  length (concat ls) = k * length ls.
Proof. induction 1 as [|l ls Hl H IH]; cbn [concat length]; [lia|]; rewrite app_length, IH, Hl; lia. Qed.
