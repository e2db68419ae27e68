(** CommandProofs.v - lemmas about CommandModel.v *)
From Coq Require Import ZifyBool ZifyNat Ascii String DecimalString DecimalNat DecimalFacts QArith Qround.
From Verif Require Import Base ImageModel ImageFacts ImageProofs PixelModel PixelProofs HistModel CliModel CliProofs PipeProofs CommandModel.
Open Scope nat_scope.
Arguments lit s : simpl never.

(** ** digits *)
Lemma digit_range c d : digit_of c = Some d -> (0 <= d <= 9)%Z.
Proof. unfold digit_of; destruct (_ && _) eqn:E; [|discriminate]; intros Q; injection Q as <-; lia. Qed.
Lemma digit_inj c c' d : digit_of c = Some d -> digit_of c' = Some d -> c = c'.
Proof.
  unfold digit_of; destruct (_ && _) eqn:E; [|discriminate]; destruct ((48 <=? nat_of_ascii c') && _) eqn:E'; [|discriminate].
  intros Q Q'; injection Q as Q; injection Q' as Q'; apply nat_of_ascii_inj; lia.
Qed.
Definition no_digit (s : str) : Prop := match s with [] => True | c :: _ => digit_of c = None end.
Lemma scan_stop s acc : no_digit s -> scan s acc = acc.
Proof. destruct s as [|c s]; simpl; [reflexivity|]; intros ->; reflexivity. Qed.
Definition str_uint (u : Decimal.uint) : str := lit (NilEmpty.string_of_uint u).
Lemma lit_cons a s : lit (String a s) = a :: lit s.
Proof. reflexivity. Qed.
Lemma scan_uint u : forall rest acc, no_digit rest -> scan (str_uint u ++ rest) (Z.of_nat acc) = Z.of_nat (Nat.of_uint_acc u acc).
Proof.
  unfold str_uint; induction u; intros rest acc N; [apply scan_stop, N|..];
    cbn [NilEmpty.string_of_uint]; rewrite lit_cons; cbn [scan app];
    match goal with |- context [digit_of ?c] => let v := eval vm_compute in (digit_of c) in change (digit_of c) with v end; cbv iota beta;
    cbn [Nat.of_uint_acc]; rewrite <- (IHu rest) by exact N; f_equal; rewrite ?Nat.tail_mul_spec; lia.
Qed.
Definition digits (s : str) : Prop := Forall (fun c => digit_of c <> None) s.
Lemma digits_uint s : digits s -> exists u, s = str_uint u.
Proof.
  induction 1 as [|c s H _ (u & ->)]; [exists Decimal.Nil; reflexivity|].
  destruct (digit_of c) as [d|] eqn:E; [|congruence]; pose proof (digit_range _ _ E) as B.
  assert (C : forall c', digit_of c' = Some d -> c = c') by (intros c' Q; eapply digit_inj; eauto).
  assert (D : (d = 0 \/ d = 1 \/ d = 2 \/ d = 3 \/ d = 4 \/ d = 5 \/ d = 6 \/ d = 7 \/ d = 8 \/ d = 9)%Z) by lia.
  unfold str_uint; repeat destruct D as [D|D]; subst d;
    [ rewrite (C "0"%char) by reflexivity; exists (Decimal.D0 u) | rewrite (C "1"%char) by reflexivity; exists (Decimal.D1 u)
    | rewrite (C "2"%char) by reflexivity; exists (Decimal.D2 u) | rewrite (C "3"%char) by reflexivity; exists (Decimal.D3 u)
    | rewrite (C "4"%char) by reflexivity; exists (Decimal.D4 u) | rewrite (C "5"%char) by reflexivity; exists (Decimal.D5 u)
    | rewrite (C "6"%char) by reflexivity; exists (Decimal.D6 u) | rewrite (C "7"%char) by reflexivity; exists (Decimal.D7 u)
    | rewrite (C "8"%char) by reflexivity; exists (Decimal.D8 u) | rewrite (C "9"%char) by reflexivity; exists (Decimal.D9 u)]; reflexivity.
Qed.
Lemma uint_digits u : digits (str_uint u).
Proof. unfold str_uint, digits; induction u; cbn [NilEmpty.string_of_uint]; rewrite ?lit_cons; constructor; auto; vm_compute; discriminate. Qed.
Lemma decimal_uint n : decimal n = match Nat.to_uint n with Decimal.Nil => lit "0" | u => str_uint u end.
Proof. unfold decimal, NilZero.string_of_uint; destruct (Nat.to_uint n); reflexivity. Qed.
Lemma decimal_str n : decimal n = str_uint (Nat.to_uint n).
Proof. rewrite decimal_uint; pose proof (to_uint_nonnil n); destruct (Nat.to_uint n); congruence. Qed.
Lemma decimal_digits n : digits (decimal n).
Proof. rewrite decimal_str; apply uint_digits. Qed.
Lemma decimal_nonempty n : decimal n <> [].
Proof. rewrite decimal_str; pose proof (to_uint_nonnil n); unfold str_uint; destruct (Nat.to_uint n); discriminate || congruence. Qed.
Lemma scan_zeros k rest : forall acc, scan (repeat "0"%char k ++ rest) acc = scan rest (10 ^ Z.of_nat k * acc)%Z.
Proof.
  induction k as [|k IH]; intros acc; [change (Z.of_nat 0) with 0%Z; rewrite Z.pow_0_r, Z.mul_1_l; reflexivity|]; cbn [repeat app scan]; change (digit_of "0"%char) with (Some 0%Z); cbv iota beta.
  rewrite IH; f_equal; rewrite Nat2Z.inj_succ, Z.pow_succ_r by lia; ring.
Qed.
Lemma scan_decimal k n rest : no_digit rest -> scan (repeat "0"%char k ++ decimal n ++ rest) 0 = Z.of_nat n.
Proof.
  intros N; rewrite scan_zeros, Z.mul_0_r, decimal_str; change 0%Z with (Z.of_nat 0); rewrite scan_uint by exact N.
  f_equal; apply (Unsigned.of_to n).
Qed.
Lemma has_digit_app a b : digits a -> a <> [] -> has_digit (a ++ b) = true.
Proof. intros D; destruct D as [|c a H _]; [congruence|]; intros _; cbn; destruct (digit_of c); congruence. Qed.
Lemma digits_zeros k : digits (repeat "0"%char k).
Proof. apply Forall_forall; intros c Hc; apply repeat_spec in Hc; subst; discriminate. Qed.
Lemma zeros_decimal u : u <> Decimal.Nil -> exists k, str_uint u = repeat "0"%char k ++ decimal (Nat.of_uint u).
Proof.
  intros N; rewrite decimal_str, Unsigned.to_of.
  assert (G : forall v, exists k, str_uint v = repeat "0"%char k ++ str_uint (Decimal.nzhead v)).
  { induction v as [|v (k & IH)|v _|v _|v _|v _|v _|v _|v _|v _|v _]; try (exists 0; reflexivity).
    exists (S k); cbn [Decimal.nzhead repeat app]; rewrite <- IH; reflexivity. }
  destruct (G u) as (k & E); unfold Decimal.unorm; destruct (Decimal.nzhead u) eqn:Z; try (exists k; exact E).
  destruct k as [|k]; [cbn in E; destruct u; [congruence|..]; discriminate|].
  exists k; rewrite E; cbn [repeat]; rewrite repeat_cons, <- app_assoc; reflexivity.
Qed.
Fixpoint take_digits (s : str) : str :=
  match s with [] => [] | c :: r => match digit_of c with Some _ => c :: take_digits r | None => [] end end.
Lemma digits_split s : exists a b, s = a ++ b /\ digits a /\ no_digit b /\ (has_digit s = true -> a <> []).
Proof.
  induction s as [|c s (a & b & -> & D & N & _)]; [exists [], []; repeat split; [constructor|discriminate]|].
  destruct (digit_of c) as [d|] eqn:E.
  - exists (c :: a), b; split; [reflexivity|]; split; [constructor; [congruence|exact D]|]; split; [exact N|discriminate].
  - exists [], (c :: a ++ b); split; [reflexivity|]; split; [constructor|]; split; [exact E|]; cbn; rewrite E; discriminate.
Qed.
(** a text that begins with a digit: zeros, a number as it is written, and something that is no digit *)
Lemma has_digit_shape s : has_digit s = true ->
  exists k n rest, s = repeat "0"%char k ++ decimal n ++ rest /\ no_digit rest /\ scan s 0 = Z.of_nat n.
Proof.
  intros H; destruct (digits_split s) as (a & b & -> & D & N & NE); specialize (NE H).
  destruct (digits_uint a D) as (u & ->).
  assert (u <> Decimal.Nil) by (intros ->; apply NE; reflexivity).
  destruct (zeros_decimal u) as (k & E); auto; exists k, (Nat.of_uint u), b; rewrite E, <- app_assoc; repeat split; auto.
  apply scan_decimal, N.
Qed.

(** ** loops over pixels *)
Lemma wn_small z : (0 <= z < two64)%Z -> wn z = Z.to_nat z.
Proof. intros H; unfold wn, w64; rewrite Z.mod_small; auto. Qed.
Lemma wn_fits n : fits n -> wn (Z.of_nat n) = n.
Proof. intros H; rewrite wn_small by (unfold fits in H; lia); apply Nat2Z.id. Qed.
Lemma new_image_sizes {A} (d : A) ds : fits (prodn ds) -> new_image d ds = image_sizes d ds.
Proof. intros H; unfold new_image, image_sizes; rewrite wn_fits; auto. Qed.
Definition pol_ok (pol : option (nat -> list nat)) : Prop := match pol with Some s => sched1_ok s | None => True end.
Lemma order_ok pol : pol_ok pol -> sched1_ok (order pol).
Proof. destruct pol; cbn; auto; intros _; apply sched1_seq0. Qed.
Lemma paint_Repr {A} (d : A) pol w h f g : pol_ok pol -> fits (w * h) -> (forall x y, x < w -> y < h -> f x y = Ok (g x y)) ->
  exists o, paint pol w h f (new_image d [w; h]) = Ok o /\ Repr o w h g.
Proof.
  intros Hp Hf Hg; rewrite new_image_sizes by (rewrite prodn2; exact Hf); pose proof (Repr_sizes d w h) as (D & L & _).
  unfold paint; destruct pol as [s|].
  - rewrite wn_fits by exact Hf.
    destruct (overlay_all (s (w * h)) (fun i out => let* v := f (i mod w) (i / w) in at_set out [i mod w; i / w] v)
      (fun i => i mod w) (fun i => i / w) (image_sizes d [w; h]) w h g D L) as (o & E & R).
    + intros i st Hi Ds Ls; apply sched1_in in Hi; auto.
      assert (NZ : w <> 0) by (intros Z0; rewrite Z0 in Hi; simpl in Hi; lia).
      assert (Hx : i mod w < w) by (apply Nat.mod_upper_bound; exact NZ).
      assert (Hy : i / w < h) by (apply Nat.div_lt_upper_bound; auto; lia).
      rewrite Hg by auto; cbn [bind]; apply (at_set2_ok st w h); auto.
    + intros i Hi; apply sched1_in in Hi; auto.
      assert (NZ : w <> 0) by (intros Z0; rewrite Z0 in Hi; simpl in Hi; lia).
      split; [apply Nat.mod_upper_bound; exact NZ | apply Nat.div_lt_upper_bound; auto; lia].
    + intros X Y HX HY; exists (Y * w + X); rewrite sched1_in by exact Hp; split; [nia|split].
      * rewrite Nat.add_comm, Nat.mod_add by lia; apply Nat.mod_small; auto.
      * rewrite Nat.div_add_l by lia; rewrite Nat.div_small by lia; lia.
    + rewrite E; exists o; split; auto.
  - apply (overlay_all _ _ (fun p => snd p) (fun p => fst p)); auto.
    + intros p st Hi Ds Ls; apply in_grid in Hi; rewrite Hg by lia; cbn [bind]; apply (at_set2_ok st w h); auto; lia.
    + intros p Hi; apply in_grid in Hi; lia.
    + intros x y Hx Hy; exists (y, x); rewrite in_grid; cbn; auto.
Qed.
(** a loop over no pixel *)
Lemma paint_none {A} pol w h (f : nat -> nat -> res A) out : pol_ok pol -> w * h = 0 -> paint pol w h f out = Ok out.
Proof.
  intros Hp Z; unfold paint; destruct pol as [s|].
  - rewrite wn_fits by (unfold fits, two64; lia); rewrite Z.
    assert (E : s 0 = []) by (destruct (s 0) as [|i l] eqn:E; auto; exfalso; assert (I : In i (s 0)) by (rewrite E; left; auto); apply sched1_in in I; auto; lia).
    rewrite E; reflexivity.
  - assert (E : grid h w = []) by (destruct (grid h w) as [|p l] eqn:E; auto; exfalso; assert (I : In p (grid h w)) by (rewrite E; left; auto); apply in_grid in I; nia).
    rewrite E; reflexivity.
Qed.
(** the first pixel that fails decides *)
Lemma for_list_first {I T} (l : list I) (body : I -> T -> res T) st (r : res T) :
  l <> [] -> (forall i s, In i l -> body i s = r) -> (forall s, r <> Ok s) -> for_list l body st = r.
Proof. destruct l as [|i l]; [congruence|]; intros _ H N; cbn; rewrite H by (left; auto); destruct r; cbn; auto; exfalso; eapply N; reflexivity. Qed.

(** ** counting and replacing *)
Lemma count_loop (eq : Z -> bool) (l : list Z) idx : forall n, Forall (fun i => i < length l) idx ->
  for_list idx (fun i n => let* v := vget l i in Ok (if eq v then S n else n)) n = Ok (n + length (filter (fun i => eq (nth i l 0%Z)) idx)).
Proof.
  induction idx as [|i idx IH]; intros n H; cbn [for_list filter]; [f_equal; cbn; lia|].
  inversion H as [|? ? Hi Hr]; subst; rewrite (vget_ok _ _ (nth i l 0%Z)) by (apply nth_error_nth'; exact Hi); cbn [bind]; rewrite IH by exact Hr.
  f_equal; destruct (eq (nth i l 0%Z)); cbn [length]; lia.
Qed.
Lemma filter_perm_length {A} (p : A -> bool) l l' : Permutation l l' -> length (filter p l) = length (filter p l').
Proof. induction 1; cbn; repeat match goal with |- context [p ?x] => destruct (p x) end; cbn; lia. Qed.
Lemma filter_nth_seq (eq : Z -> bool) (l : list Z) : forall k m, length (filter (fun i => eq (nth (i - k) (m ++ l) 0%Z)) (seq (k + length m) (length l))) = length (filter eq l).
Proof.
  induction l as [|a l IH]; intros k m; cbn [length seq filter]; [reflexivity|].
  replace (k + length m - k) with (length m) by lia; rewrite app_nth2, Nat.sub_diag by lia; cbn [nth].
  specialize (IH k (m ++ [a])); rewrite app_length, <- app_assoc in IH; cbn [app length] in IH.
  replace (k + (length m + 1)) with (S (k + length m)) in IH by lia; destruct (eq a); cbn [length]; lia.
Qed.
Lemma count_in_ok s eq l : sched1_ok s -> count_in s eq l = Ok (length (filter eq l)).
Proof.
  intros Hs; unfold count_in; rewrite count_loop by (apply Forall_forall; intros i Hi; apply sched1_in in Hi; auto); f_equal.
  rewrite (filter_perm_length _ _ _ (Hs (length l))); cbn [Nat.add].
  pose proof (filter_nth_seq eq l 0 []) as E; cbn [app length Nat.add] in E; rewrite <- E; f_equal; apply filter_ext; intros i; rewrite Nat.sub_0_r; reflexivity.
Qed.
Lemma replace_loop (eq : Z -> bool) y (l : list Z) idx : forall r, NoDup idx -> Forall (fun i => i < length l) idx -> length r = length l ->
  (forall i, In i idx -> nth_error r i = nth_error l i) ->
  exists o, for_list idx (fun i r => let* v := vget r i in if eq v then vset r i y else Ok r) r = Ok o /\ length o = length l /\
    forall k, nth_error o k = if in_dec Nat.eq_dec k idx then option_map (fun v => if eq v then y else v) (nth_error l k) else nth_error r k.
Proof.
  induction idx as [|i idx IH]; intros r ND H L Hr; [exists r; repeat split; auto|].
  inversion ND as [|? ? NI ND']; subst; inversion H as [|? ? Hi H']; subst; cbn [for_list].
  assert (Ei : nth_error r i = nth_error l i) by (apply Hr; left; auto).
  destruct (nth_error l i) as [v|] eqn:El; [|apply nth_error_None in El; lia].
  unfold vget at 1; rewrite Ei; cbn [bind].
  assert (G : exists r', (if eq v then vset r i y else Ok r) = Ok r' /\ length r' = length l /\ nth_error r' i = Some (if eq v then y else v) /\ forall k, k <> i -> nth_error r' k = nth_error r k).
  { destruct (eq v).
    - rewrite vset_ok by lia; exists (list_upd i y r); rewrite list_upd_length; repeat split; auto; [apply list_upd_same; lia|].
      intros k Hk; apply list_upd_other; auto.
    - exists r; repeat split; auto. }
  destruct G as (r' & E' & L' & Hi' & Ho'); rewrite E'; cbn [bind].
  destruct (IH r' ND' H' L') as (o & Eo & Lo & Ho).
  { intros k Hk; assert (k <> i) by congruence; rewrite Ho' by auto; apply Hr; right; auto. }
  exists o; split; [exact Eo|]; split; [exact Lo|]; intros k; rewrite Ho.
  destruct (in_dec Nat.eq_dec k idx) as [I1|I1], (in_dec Nat.eq_dec k (i :: idx)) as [I2|I2]; auto.
  - exfalso; apply I2; right; auto.
  - destruct I2 as [->|I2]; [rewrite Hi', El; reflexivity | contradiction].
  - apply Ho'; intros ->; apply I2; left; auto.
Qed.
Lemma replace_in_ok s eq y l : sched1_ok s -> replace_in s eq y l = Ok (map (fun v => if eq v then y else v) l).
Proof.
  intros Hs; unfold replace_in; destruct (replace_loop eq y l (s (length l)) l) as (o & E & L & Ho); auto.
  - eapply Permutation_NoDup; [apply Permutation_sym, Hs | apply seq_NoDup].
  - apply Forall_forall; intros i Hi; apply sched1_in in Hi; auto.
  - rewrite E; f_equal; apply nth_error_ext_len; [rewrite L, map_length; reflexivity|]; intros k Hk; rewrite Ho, nth_error_map.
    destruct (in_dec Nat.eq_dec k (s (length l))) as [I|I]; [reflexivity|]; exfalso; apply I, sched1_in; auto; lia.
Qed.

(** ** the integral types *)
Definition holds (t : ity) (v : Z) : Prop := (lowest t <= v <= highest t)%Z.
Lemma pow_half b : (1 <= b)%Z -> (2 ^ b = 2 * 2 ^ (b - 1))%Z.
Proof. intros H; replace b with (Z.succ (b - 1)) at 1 by lia; apply Z.pow_succ_r; lia. Qed.
Lemma pow_pos b : (0 <= b)%Z -> (1 <= 2 ^ b)%Z.
Proof. intros H; pose proof (Z.pow_pos_nonneg 2 b); lia. Qed.
Lemma conv_id t v : (1 <= bits t)%Z -> holds t v -> conv t v = v.
Proof.
  intros B H; unfold holds, lowest, highest, conv, is_bool in *; pose proof (pow_half _ B) as P; pose proof (pow_pos (bits t - 1)) as P1.
  destruct (Z.eqb_spec (bits t) 1) as [E|E]; destruct (signed t); cbn [andb negb]; try rewrite E in *; try change (2 ^ 1)%Z with 2%Z in *; try change (2 ^ (1 - 1))%Z with 1%Z in *.
  - rewrite Z.mod_small; lia.
  - destruct (Z.eqb_spec v 0); lia.
  - rewrite Z.mod_small; lia.
  - apply Z.mod_small; lia.
Qed.
Lemma holds_wider a b v : (1 <= bits a <= bits b)%Z -> signed a = signed b -> holds a v -> holds b v.
Proof.
  unfold holds, lowest, highest; intros B E H; rewrite E in H; destruct (signed b).
  - pose proof (Z.pow_le_mono_r 2 (bits a - 1) (bits b - 1)); lia.
  - pose proof (Z.pow_le_mono_r 2 (bits a) (bits b)); lia.
Qed.
Lemma holds_promote t v : (1 <= bits t)%Z -> holds t v -> holds (promote t) v.
Proof.
  intros B H; unfold promote; destruct (Z.ltb_spec (bits t) 32); [|exact H]; unfold holds, lowest, highest in *; cbn [bits signed].
  change (2 ^ (32 - 1))%Z with (2147483648)%Z; destruct (signed t).
  - pose proof (Z.pow_le_mono_r 2 (bits t - 1) 31); change (2 ^ 31)%Z with (2147483648)%Z in *; lia.
  - pose proof (Z.pow_le_mono_r 2 (bits t) 31); change (2 ^ 31)%Z with (2147483648)%Z in *; lia.
Qed.
Lemma promote_bits t : (1 <= bits t)%Z -> (1 <= bits (promote t))%Z.
Proof. unfold promote; destruct (_ <? _)%Z; cbn; lia. Qed.
Lemma unsigned_nonneg t v : signed t = false -> holds t v -> (0 <= v)%Z.
Proof. unfold holds, lowest; intros ->; lia. Qed.
Lemma common_id t u x y : (1 <= bits t)%Z -> (1 <= bits u)%Z -> holds t x -> holds u y -> (signed t = signed u \/ 0 <= x /\ 0 <= y)%Z ->
  conv (common t u) x = x /\ conv (common t u) y = y.
Proof.
  intros Bt Bu Hx Hy C.
  assert (C' : (signed (promote t) = signed (promote u) /\ signed t = signed u \/ 0 <= x /\ 0 <= y)%Z).
  { destruct C as [C|C]; [|right; exact C]; destruct (signed t) eqn:St.
    - left; unfold promote; destruct (_ <? _)%Z, (_ <? _)%Z; cbn; rewrite ?St, <- ?C; auto.
    - right; split; [eapply (unsigned_nonneg t) | eapply (unsigned_nonneg u)]; eauto. }
  pose proof (holds_promote _ _ Bt Hx) as Px; pose proof (holds_promote _ _ Bu Hy) as Py; pose proof (promote_bits _ Bt) as Bt'; pose proof (promote_bits _ Bu) as Bu'.
  unfold common; cbv zeta; set (a := promote t) in *; set (b := promote u) in *; clearbody a b; clear Hx Hy Bt Bu C.
  destruct (Bool.eqb_spec (signed a) (signed b)) as [E|E].
  - destruct (Z.ltb_spec (bits a) (bits b)); split; apply conv_id; auto; [eapply holds_wider; [|exact E|exact Px] | eapply holds_wider; [|symmetry; exact E|exact Py]]; lia.
  - destruct C' as [[C _]|[X Y]]; [contradiction|].
    assert (K : forall u s p q, signed u = false -> signed s = true -> (1 <= bits u)%Z -> (1 <= bits s)%Z -> holds u p -> holds s q -> (0 <= q)%Z ->
      let c := if (bits s <=? bits u)%Z then u else s in conv c p = p /\ conv c q = q).
    { intros u' s' p q Su Ss Bu Bs Hp Hq Q; cbv zeta; destruct (Z.leb_spec (bits s') (bits u')).
      - split; apply conv_id; auto; unfold holds, lowest, highest in *; rewrite Su, Ss in *; pose proof (Z.pow_le_mono_r 2 (bits s' - 1) (bits u')); lia.
      - split; apply conv_id; auto; unfold holds, lowest, highest in *; rewrite Su, Ss in *; pose proof (Z.pow_le_mono_r 2 (bits u') (bits s' - 1)); pose proof (pow_pos (bits s' - 1)); lia. }
    destruct (signed a) eqn:Sa, (signed b) eqn:Sb; try congruence.
    + destruct (K b a y x); auto.
    + destruct (K a b x y); auto.
Qed.
Lemma eq_mixed_ok t u x y : (1 <= bits t)%Z -> (1 <= bits u)%Z -> holds t x -> holds u y -> (signed t = signed u \/ 0 <= x /\ 0 <= y)%Z ->
  eq_mixed t u x y = (x =? y)%Z.
Proof. intros; unfold eq_mixed; destruct (common_id t u x y) as [-> ->]; auto. Qed.
Lemma parse_int_range lo hi s v : parse_int lo hi s = Ok v -> (lo <= v <= hi)%Z.
Proof.
  unfold parse_int; destruct (from_chars lo hi (sanitize s)) as [z|] eqn:E; [|discriminate]; intros Q; injection Q as <-; revert E.
  unfold from_chars; cbv zeta; destruct (has_digit _); [|discriminate].
  destruct (_ && (_ <=? hi)%Z) eqn:E; [|discriminate]; apply andb_true_iff in E; destruct E as [E1 E2]; apply Z.leb_le in E1, E2; intros Q; injection Q as <-; auto.
Qed.
Lemma parse_elem_holds t s v : (1 <= bits t)%Z -> parse_elem t s = Ok v -> holds t v.
Proof.
  intros B; unfold parse_elem, holds, is_bool; destruct (Z.eqb_spec (bits t) 1) as [E|E]; destruct (signed t) eqn:S1; cbn [andb negb]; try (apply parse_int_range).
  unfold lowest, highest; rewrite S1, E; destruct (parse_bool s) as [[]| |]; cbn [bind]; intros Q; try discriminate; injection Q as <-; change (2 ^ 1)%Z with 2%Z; lia.
Qed.
Lemma parse_elem_defined t s : parse_elem t s <> UB.
Proof.
  unfold parse_elem, parse_bool, parse_int; destruct (is_bool t).
  - destruct (_ || _); [discriminate|]; destruct (_ || _); discriminate.
  - destruct (from_chars _ _ _); discriminate.
Qed.
