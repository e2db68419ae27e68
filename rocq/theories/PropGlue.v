(** PropGlue.v - C175 to C178: distances of ranges, sorting and the order of colours, one command on the command line, the blockwise
    transform. *)
From Coq Require Import Ascii String Reals Lra Lia ZifyBool ZifyNat Sorting.Sorted.
From Verif Require Import CliModel PipeProofs PropPipe CliProofs CommandModel CommandProofs ArithModel ArithProofs.
From Verif Require Import Base ImageModel ImageFacts IndexModel GeomModel GeomProofs CropProofs PixelModel PixelProofs HistModel HistProofs BigSum RSum ReduceModel ReduceProofs
  NestedModel NestedProofs FourierModel FourierProofs PropFourier PropCommand PropReduce PropSift GlueModel.
From Coq Require Import Rdefinitions.
Open Scope nat_scope.

(** ** C175 *)
(** the sum of the squares of the differences *)
Definition total (p q : list Z) : Z := fold_right Z.add 0%Z (map (fun xy => (fst xy - snd xy) ^ 2)%Z (combine p q)).
Definition of_type (t : ity) (l : list Z) : Prop := Forall (fun x => lowest t <= x <= highest t)%Z l.

Lemma total_cons x p y q : total (x :: p) (y :: q) = ((x - y) ^ 2 + total p q)%Z.
Proof. reflexivity. Qed.
Lemma total_nonneg p : forall q, (0 <= total p q)%Z.
Proof. induction p as [|x p IH]; intros [|y q]; try (cbn; lia); rewrite total_cons; pose proof (IH q); nia. Qed.
Lemma conv_small t z : (2 <= bits t)%Z -> (lowest t <= z <= highest t)%Z -> conv t z = z.
Proof.
  intros B; unfold conv, lowest, highest, is_bool; replace (bits t =? 1)%Z with false by lia; cbn [andb].
  pose proof (Z.pow_pos_nonneg 2 (bits t - 1) ltac:(lia) ltac:(lia)); assert (2 ^ bits t = 2 * 2 ^ (bits t - 1))%Z by (rewrite <- Z.pow_succ_r by lia; f_equal; lia).
  destruct (signed t); intros; rewrite Z.mod_small; lia.
Qed.
Lemma promote_bits t : (2 <= bits t)%Z -> (32 <= bits (promote t))%Z.
Proof. unfold promote; destruct (bits t <? 32)%Z eqn:E; cbn; lia. Qed.
Lemma pow2_le a b : (0 <= a <= b)%Z -> (2 ^ a <= 2 ^ b)%Z.
Proof. intros; apply Z.pow_le_mono_r; lia. Qed.
Lemma promote_highest t : (2 <= bits t)%Z -> (highest t <= highest (promote t) /\ 0 < highest t /\ lowest (promote t) <= 0)%Z.
Proof.
  intros B; unfold promote; destruct (bits t <? 32)%Z eqn:E; unfold highest, lowest; cbn [bits signed].
  - pose proof (pow2_le (bits t) 31 ltac:(lia)); pose proof (pow2_le (bits t - 1) 31 ltac:(lia)).
    pose proof (pow2_le 1 (bits t) ltac:(lia)); pose proof (pow2_le 1 (bits t - 1) ltac:(lia)).
    change (2 ^ (32 - 1))%Z with 2147483648%Z in *; change (2 ^ 31)%Z with 2147483648%Z in *; change (2 ^ 1)%Z with 2%Z in *; destruct (signed t); lia.
  - pose proof (pow2_le 1 (bits t) ltac:(lia)); pose proof (pow2_le 1 (bits t - 1) ltac:(lia)); change (2 ^ 1)%Z with 2%Z in *; destruct (signed t); lia.
Qed.
Lemma lowest_promote t : (2 <= bits t)%Z -> signed (promote t) = true -> lowest (promote t) = (- highest (promote t) - 1)%Z.
Proof. intros B S; unfold lowest, highest; rewrite S; lia. Qed.

(** *** exact: the sum fits the type *)
Lemma add_square_exact t a b : (2 <= bits t)%Z -> (0 <= a)%Z -> (0 <= b)%Z -> (a + b <= highest t)%Z -> add_square t (Ok a) (Ok b) = Ok (a + b)%Z.
Proof.
  intros B A0 B0 L; pose proof (promote_highest t B) as (H1 & H2 & H3); unfold add_square, plus_elem; cbn [bind].
  assert (C : conv t (a + b) = (a + b)%Z) by (apply conv_small; [exact B|]; unfold lowest; destruct (signed t); pose proof (Z.pow_nonneg 2 (bits t - 1)); lia).
  destruct (signed (promote t) && (32 <=? bits (promote t))%Z).
  - replace ((lowest (promote t) <=? a + b)%Z && (a + b <=? highest (promote t))%Z) with true by lia; cbn [bind]; rewrite C; reflexivity.
  - cbn [bind]; rewrite (conv_small (promote t)) by (pose proof (promote_bits t B); lia); rewrite C; reflexivity.
Qed.
Lemma square_exact t x y : (2 <= bits t)%Z -> (0 <= lowest t -> 32 <= bits t -> True)%Z -> ((x - y) ^ 2 <= highest t)%Z -> (lowest t <= x <= highest t)%Z -> (lowest t <= y <= highest t)%Z ->
  square_elem t x y = Ok ((x - y) ^ 2)%Z \/ signed (promote t) = false.
Proof.
  intros B _ L X Y; pose proof (promote_highest t B) as (H1 & H2 & H3); destruct (signed (promote t)) eqn:S; [left|right; reflexivity].
  pose proof (lowest_promote t B S); assert (- highest (promote t) <= x - y <= highest (promote t))%Z by nia.
  unfold square_elem, minus_elem, times_elem; rewrite S; replace (32 <=? bits (promote t))%Z with true by (pose proof (promote_bits t B); lia); cbn [andb].
  replace ((lowest (promote t) <=? x - y)%Z && (x - y <=? highest (promote t))%Z) with true by lia; cbn [bind].
  replace ((lowest (promote t) <=? (x - y) * (x - y))%Z && ((x - y) * (x - y) <=? highest (promote t))%Z) with true by nia; f_equal; ring.
Qed.
(** unsigned types of 32 bits and more: modulo a power of two *)
Lemma square_mod t x y : (32 <= bits t)%Z -> signed t = false -> square_elem t x y = Ok ((x - y) ^ 2 mod 2 ^ bits t)%Z.
Proof.
  intros B S; unfold square_elem, promote; replace (bits t <? 32)%Z with false by lia; unfold minus_elem, times_elem; rewrite S; cbn [andb bind].
  unfold conv, is_bool; rewrite S; replace (bits t =? 1)%Z with false by lia; cbn [andb]; rewrite <- Z.mul_mod by (apply Z.pow_nonzero; lia); do 2 f_equal; ring.
Qed.
Lemma square_exact_all t x y : (2 <= bits t)%Z -> ((x - y) ^ 2 <= highest t)%Z -> (lowest t <= x <= highest t)%Z -> (lowest t <= y <= highest t)%Z ->
  square_elem t x y = Ok ((x - y) ^ 2)%Z.
Proof.
  intros B L X Y; destruct (square_exact t x y B (fun _ _ => I) L X Y) as [E|S]; [exact E|].
  assert (S' : signed t = false /\ (32 <= bits t)%Z) by (unfold promote in S; destruct (bits t <? 32)%Z eqn:E; [discriminate|split; [exact S|lia]]).
  destruct S' as [S1 S2]; rewrite square_mod by assumption; f_equal; apply Z.mod_small; unfold highest in L; rewrite S1 in L; nia.
Qed.
Lemma squared_exact t p : forall q s, (2 <= bits t)%Z -> of_type t p -> of_type t q -> length p = length q -> (0 <= s)%Z -> (s + total p q <= highest t)%Z ->
  squared_ints t p q s = Ok (s + total p q)%Z.
Proof.
  induction p as [|x p IH]; intros [|y q] s B P Q L S0 T; try discriminate; [cbn; f_equal; lia|].
  inversion P as [|? ? P1 P2]; inversion Q as [|? ? Q1 Q2]; subst; rewrite total_cons in *; pose proof (total_nonneg p q).
  cbn [squared_ints]; rewrite square_exact_all by (auto; nia); rewrite add_square_exact by (auto; nia); cbn [bind].
  rewrite IH by (auto; try (cbn in L; lia); nia); f_equal; ring.
Qed.
Lemma squares_map t p : forall q, (2 <= bits t)%Z -> of_type t p -> of_type t q -> (total p q <= highest t)%Z ->
  map (fun xy => square_elem t (fst xy) (snd xy)) (combine p q) = map Ok (map (fun xy => (fst xy - snd xy) ^ 2)%Z (combine p q)).
Proof.
  induction p as [|x p IH]; intros [|y q] B P Q T; try reflexivity; cbn [combine map fst snd].
  inversion P as [|? ? P1 P2]; inversion Q as [|? ? Q1 Q2]; subst; rewrite total_cons in T; pose proof (total_nonneg p q).
  rewrite square_exact_all by (auto; nia); f_equal; apply IH; auto; nia.
Qed.
Lemma squares_nonneg p q : Forall (fun z => (0 <= z)%Z) (map (fun xy => (fst xy - snd xy) ^ 2)%Z (combine p q)).
Proof. apply Forall_map, Forall_forall; intros [x y] _; cbn [fst snd]; nia. Qed.
Lemma zsum_nonneg l : Forall (fun z => (0 <= z)%Z) l -> (0 <= zsum l)%Z.
Proof. induction 1; unfold zsum in *; cbn [fold_right]; lia. Qed.
Lemma reduces_exact t l r : (2 <= bits t)%Z -> Forall (fun z => (0 <= z)%Z) l -> (zsum l <= highest t)%Z -> reduces (add_square t) (map Ok l) r -> r = Ok (zsum l).
Proof.
  intros B F L HR.
  assert (G : forall zs, map Ok l = map Ok zs -> Forall (fun z => (0 <= z)%Z) zs -> (zsum zs <= highest t)%Z -> r = Ok (zsum zs)).
  { apply (reduces_rel (add_square t) (fun l r => forall zs, l = map Ok zs -> Forall (fun z => (0 <= z)%Z) zs -> (zsum zs <= highest t)%Z -> r = Ok (zsum zs))) with (4 := HR).
    - intros a zs E _ _; destruct zs as [|z [|? ?]]; try discriminate; injection E as ->; cbn; f_equal; lia.
    - intros l1 l2 a b S1 S2 zs E Fz Lz; symmetry in E; apply map_eq_app in E as (z1 & z2 & -> & <- & <-); apply Forall_app in Fz as [F1 F2]; rewrite zsum_app in *.
      pose proof (zsum_nonneg _ F1); pose proof (zsum_nonneg _ F2).
      rewrite (S1 z1), (S2 z2) by (auto; lia); apply add_square_exact; auto; lia.
    - intros l1 l2 a P S zs E Fz Lz; subst l2; apply Permutation_map_inv in P as (zs' & -> & P).
      rewrite (zsum_perm _ _ P); apply S; auto; [rewrite <- P; exact Fz|rewrite <- (zsum_perm _ _ P); exact Lz]. }
  apply G; auto.
Qed.
(** Where the sum of the squares fits the type of the elements, both give it, whatever the order of the parallel reduction. *)
Theorem C175_exact t p q : (2 <= bits t)%Z -> of_type t p -> of_type t q -> length p = length q -> (total p q <= highest t)%Z ->
  squared_ints t p q 0 = Ok (total p q) /\ (forall r, squared_ints_policy t p q r <-> r = Ok (total p q)).
Proof.
  intros B P Q L T; split; [rewrite squared_exact by (auto; lia); f_equal; lia|].
  unfold squared_ints_policy; replace (length p =? length q) with true by lia; cbn [negb]; rewrite squares_map by auto.
  assert (Z0 : zsum (0%Z :: map (fun xy => (fst xy - snd xy) ^ 2)%Z (combine p q)) = total p q) by (unfold zsum, total; cbn [fold_right]; lia).
  assert (U : forall r, reduces (add_square t) (map Ok (0%Z :: map (fun xy => (fst xy - snd xy) ^ 2)%Z (combine p q))) r -> r = Ok (total p q)).
  { intros r HR; rewrite <- Z0; apply (reduces_exact t); [exact B|constructor; [lia|apply squares_nonneg]|lia|exact HR]. }
  intros r; cbn [map] in U; split; [apply U|intros ->].
  destruct (reduces_exists (add_square t) (Ok 0%Z :: map Ok (map (fun xy => (fst xy - snd xy) ^ 2)%Z (combine p q)))) as (r & Hr); [discriminate|].
  rewrite <- (U r Hr); exact Hr.
Qed.
Print Assumptions C175_exact.

(** *** modulo: bytes, and unsigned types of 32 bits and more *)
Lemma squared_mod t M B p : (0 < M)%Z -> (M - 1 <= B)%Z -> (forall a b, 0 <= a <= B -> 0 <= b <= B -> add_square t (Ok a) (Ok b) = Ok ((a + b) mod M))%Z ->
  (forall x y, lowest t <= x <= highest t -> lowest t <= y <= highest t -> exists v, square_elem t x y = Ok v /\ 0 <= v <= B /\ v mod M = (x - y) ^ 2 mod M)%Z ->
  forall q s, of_type t p -> of_type t q -> length p = length q -> (0 <= s < M)%Z -> squared_ints t p q s = Ok ((s + total p q) mod M)%Z.
Proof.
  intros M0 MB A Sq; induction p as [|x p IH]; intros [|y q] s P Q L S0; try discriminate; [cbn; f_equal; rewrite Z.mod_small; lia|].
  inversion P as [|? ? P1 P2]; inversion Q as [|? ? Q1 Q2]; subst; rewrite total_cons.
  destruct (Sq x y P1 Q1) as (v & E & V & VM); cbn [squared_ints]; rewrite E, A by lia; cbn [bind].
  rewrite IH by (auto; try (cbn in L; lia); apply Z.mod_pos_bound; lia); f_equal.
  rewrite Zplus_mod_idemp_l, <- Z.add_assoc, (Z.add_comm v), Z.add_assoc, <- (Zplus_mod_idemp_r v), VM, Zplus_mod_idemp_r; f_equal; ring.
Qed.
Lemma reduces_mod t M B l r : (0 < M)%Z -> (M - 1 <= B)%Z -> (forall a b, 0 <= a <= B -> 0 <= b <= B -> add_square t (Ok a) (Ok b) = Ok ((a + b) mod M))%Z ->
  Forall (fun z => 0 <= z <= B)%Z l -> reduces (add_square t) (map Ok l) r ->
  exists v, r = Ok v /\ (0 <= v <= B /\ v mod M = zsum l mod M /\ (v < M \/ l = [v]))%Z.
Proof.
  intros M0 MB A F HR.
  assert (G : forall zs, map Ok l = map Ok zs -> Forall (fun z => 0 <= z <= B)%Z zs -> exists v, r = Ok v /\ (0 <= v <= B /\ v mod M = zsum zs mod M /\ (v < M \/ zs = [v]))%Z).
  { apply (reduces_rel (add_square t) (fun l r => forall zs, l = map Ok zs -> Forall (fun z => 0 <= z <= B)%Z zs -> exists v, r = Ok v /\ (0 <= v <= B /\ v mod M = zsum zs mod M /\ (v < M \/ zs = [v]))%Z)) with (4 := HR).
    - intros a zs E Fz; destruct zs as [|z [|? ?]]; try discriminate; injection E as ->; inversion Fz; subst; exists z; repeat split; try lia; cbn; [f_equal; lia|right; reflexivity].
    - intros l1 l2 a b S1 S2 zs E Fz; symmetry in E; apply map_eq_app in E as (z1 & z2 & -> & <- & <-); apply Forall_app in Fz as [F1 F2]; rewrite zsum_app.
      destruct (S1 z1 eq_refl F1) as (v1 & -> & V1 & E1 & _); destruct (S2 z2 eq_refl F2) as (v2 & -> & V2 & E2 & _).
      rewrite A by lia; eexists; split; [reflexivity|]; pose proof (Z.mod_pos_bound (v1 + v2) M M0).
      split; [lia|]; split; [|left; lia]; rewrite Zmod_mod, Z.add_mod, E1, E2, <- Z.add_mod by lia; reflexivity.
    - intros l1 l2 a P S zs E Fz; subst l2; apply Permutation_map_inv in P as (zs' & -> & P).
      destruct (S zs' eq_refl) as (v & -> & V & Ev & D); [rewrite <- P; exact Fz|]; exists v; rewrite (zsum_perm _ _ P); repeat split; try tauto.
      destruct D as [D| ->]; [left; exact D|right; symmetry in P]. apply Permutation_length_1_inv in P; exact P. }
  apply G; auto.
Qed.
Lemma policy_mod t M B p q : (0 < M)%Z -> (M - 1 <= B)%Z -> (forall a b, 0 <= a <= B -> 0 <= b <= B -> add_square t (Ok a) (Ok b) = Ok ((a + b) mod M))%Z ->
  (forall x y, lowest t <= x <= highest t -> lowest t <= y <= highest t -> exists v, square_elem t x y = Ok v /\ 0 <= v <= B /\ v mod M = (x - y) ^ 2 mod M)%Z ->
  of_type t p -> of_type t q -> length p = length q -> forall r, squared_ints_policy t p q r <-> r = Ok (total p q mod M)%Z.
Proof.
  intros M0 MB A Sq P Q L.
  assert (E : exists l, map (fun xy => square_elem t (fst xy) (snd xy)) (combine p q) = map Ok l /\ Forall (fun z => 0 <= z <= B)%Z l /\ (zsum l mod M = total p q mod M)%Z).
  { clear L; revert q Q; induction P as [|x p P1 P2 IH]; intros q Q; [exists []; repeat split; constructor|].
    destruct q as [|y q]; [exists []; repeat split; constructor|]; inversion Q as [|? ? Q1 Q2]; subst; destruct (IH q Q2) as (l & E & F & Z0).
    destruct (Sq x y P1 Q1) as (v & Ev & V & VM); exists (v :: l); cbn [combine map fst snd]; rewrite Ev, E; split; [reflexivity|]; split; [constructor; auto|].
    rewrite total_cons; unfold zsum in *; cbn [fold_right]; rewrite Z.add_mod, VM, Z0, <- Z.add_mod by lia; reflexivity. }
  destruct E as (l & E & F & Z0); unfold squared_ints_policy; replace (length p =? length q) with true by lia; cbn [negb]; rewrite E.
  assert (U : forall r, reduces (add_square t) (Ok 0%Z :: map Ok l) r -> r = Ok (total p q mod M)%Z).
  { intros r HR; destruct (reduces_mod t M B (0%Z :: l) r M0 MB A) as (v & -> & V & Ev & D); [constructor; [lia|exact F]|exact HR|].
    f_equal; rewrite <- Z0; assert (S : zsum (0%Z :: l) = zsum l) by (unfold zsum; cbn [fold_right]; lia); rewrite S in Ev; rewrite <- Ev; symmetry; apply Z.mod_small.
    destruct D as [D|D]; [lia|injection D as <- _; lia]. }
  intros r; split; [apply U|intros ->].
  destruct (reduces_exists (add_square t) (Ok 0%Z :: map Ok l)) as (r & Hr); [discriminate|]; rewrite <- (U r Hr); exact Hr.
Qed.
Definition byte : ity := mkIty 8 false.
Lemma add_square_byte a b : (0 <= a <= 65025 -> 0 <= b <= 65025 -> add_square byte (Ok a) (Ok b) = Ok ((a + b) mod 256))%Z.
Proof.
  intros A B; unfold add_square, plus_elem, promote, byte; cbn [bits signed bind]; change (8 <? 32)%Z with true; cbn [signed bits andb]; change (32 <=? 32)%Z with true; cbv iota.
  unfold lowest, highest; cbn [signed bits]; change (2 ^ (32 - 1))%Z with 2147483648%Z.
  replace ((- (2147483648) <=? a + b)%Z && (a + b <=? 2147483648 - 1)%Z) with true by lia; cbn [bind]; reflexivity.
Qed.
Lemma square_byte x y : (0 <= x <= 255 -> 0 <= y <= 255 -> square_elem byte x y = Ok ((x - y) ^ 2))%Z.
Proof.
  intros X Y; unfold square_elem, minus_elem, times_elem, promote, byte; cbn [bits signed bind]; change (8 <? 32)%Z with true; cbn [signed bits andb]; change (32 <=? 32)%Z with true; cbv iota.
  unfold lowest, highest; cbn [signed bits]; change (2 ^ (32 - 1))%Z with 2147483648%Z.
  replace ((- (2147483648) <=? x - y)%Z && (x - y <=? 2147483648 - 1)%Z) with true by lia; cbn [bind].
  replace ((- (2147483648) <=? (x - y) * (x - y))%Z && ((x - y) * (x - y) <=? 2147483648 - 1)%Z) with true by nia; f_equal; ring.
Qed.
(** Bytes: modulo 256. *)
Theorem C175_bytes p q : of_type byte p -> of_type byte q -> length p = length q ->
  squared_ints byte p q 0 = Ok (total p q mod 256)%Z /\ (forall r, squared_ints_policy byte p q r <-> r = Ok (total p q mod 256)%Z).
Proof.
  intros P Q L.
  assert (Sq : forall x y, (lowest byte <= x <= highest byte -> lowest byte <= y <= highest byte -> exists v, square_elem byte x y = Ok v /\ 0 <= v <= 65025 /\ v mod 256 = (x - y) ^ 2 mod 256)%Z).
  { intros x y X Y; change (lowest byte) with 0%Z in *; change (highest byte) with 255%Z in *; rewrite square_byte by lia; eexists; split; [reflexivity|]; split; [nia|reflexivity]. }
  split; [|apply (policy_mod byte 256 65025); auto; try lia; apply add_square_byte].
  rewrite (squared_mod byte 256 65025); auto; try lia; apply add_square_byte.
Qed.
Print Assumptions C175_bytes.
(** Unsigned types of 32 bits and more: modulo 2 to the number of bits. *)
Theorem C175_unsigned t p q : (32 <= bits t)%Z -> signed t = false -> of_type t p -> of_type t q -> length p = length q ->
  squared_ints t p q 0 = Ok (total p q mod 2 ^ bits t)%Z /\ (forall r, squared_ints_policy t p q r <-> r = Ok (total p q mod 2 ^ bits t)%Z).
Proof.
  intros B S P Q L; assert (M0 : (0 < 2 ^ bits t)%Z) by (apply Z.pow_pos_nonneg; lia).
  assert (A : forall a b, (0 <= a <= 2 ^ bits t - 1 -> 0 <= b <= 2 ^ bits t - 1 -> add_square t (Ok a) (Ok b) = Ok ((a + b) mod 2 ^ bits t))%Z).
  { intros a b _ _; unfold add_square, plus_elem, promote; replace (bits t <? 32)%Z with false by lia; rewrite S; cbn [andb bind]; unfold conv, is_bool; rewrite S.
    replace (bits t =? 1)%Z with false by lia; cbn [andb]; rewrite Zmod_mod; reflexivity. }
  assert (Sq : forall x y, (lowest t <= x <= highest t -> lowest t <= y <= highest t -> exists v, square_elem t x y = Ok v /\ 0 <= v <= 2 ^ bits t - 1 /\ v mod 2 ^ bits t = (x - y) ^ 2 mod 2 ^ bits t)%Z).
  { intros x y _ _; rewrite square_mod by assumption; eexists; split; [reflexivity|]; pose proof (Z.mod_pos_bound ((x - y) ^ 2) (2 ^ bits t) M0); split; [lia|apply Zmod_mod]. }
  split; [|apply (policy_mod t (2 ^ bits t) (2 ^ bits t - 1)); auto; lia].
  rewrite (squared_mod t (2 ^ bits t) (2 ^ bits t - 1)); auto; lia.
Qed.
Print Assumptions C175_unsigned.
(** Floating elements, in exact arithmetic. *)
Theorem C175_doubles p q : length p = length q ->
  let s := fold_right Rplus 0%R (map (fun xy => (fst xy - snd xy) ^ 2)%R (combine p q)) in
  squared_range p q 0 = Ok s /\ (forall r, squared_range_policy p q r <-> r = Ok s).
Proof.
  intros L s.
  assert (G : forall p q a, length p = length q -> squared_range p q a = Ok (a + fold_right Rplus 0 (map (fun xy => (fst xy - snd xy) ^ 2) (combine p q)))%R).
  { clear; induction p as [|x p IH]; intros [|y q] a L; try discriminate; cbn [squared_range combine map fold_right fst snd]; [f_equal; lra|].
    rewrite IH by (cbn in L; lia); f_equal; ring. }
  split; [rewrite G by exact L; f_equal; unfold s; lra|].
  unfold squared_range_policy; replace (length p =? length q) with true by lia; cbn [negb].
  assert (Sm : rsuml (0%R :: map (fun xy => ((fst xy - snd xy) * (fst xy - snd xy))%R) (combine p q)) = s).
  { unfold s, rsuml; cbn [fold_right]; rewrite Rplus_0_l; f_equal; apply map_ext; intros; ring. }
  intros r; split.
  - intros (v & HR & ->); apply reduces_r in HR; rewrite HR, Sm; reflexivity.
  - intros ->; destruct (reduces_exists Rplus (0%R :: map (fun xy => ((fst xy - snd xy) * (fst xy - snd xy))%R) (combine p q))) as (v & Hv); [discriminate|].
    exists v; split; [exact Hv|]; apply reduces_r in Hv; rewrite Hv, Sm; reflexivity.
Qed.
Print Assumptions C175_doubles.
(** Ranges of different lengths: the exception. *)
Theorem C175_lengths (p q : list Z) (p' q' : list R) t : length p <> length q -> length p' <> length q' ->
  (of_type byte p -> of_type byte q -> squared_ints byte p q 0 = Throw RuntimeError) /\ squared_range p' q' 0 = Throw RuntimeError
  /\ (forall r, squared_ints_policy t p q r <-> r = Throw RuntimeError) /\ (forall r, squared_range_policy p' q' r <-> r = Throw RuntimeError).
Proof.
  intros L L'; split; [|split; [|split]].
  - intros P Q; cut (forall s, (0 <= s <= 255)%Z -> squared_ints byte p q s = Throw RuntimeError); [intros G; apply G; lia|].
    revert q Q L; induction P as [|x p P1 P2 IH]; intros q Q L s S0.
    + destruct q; [cbn in L; lia|reflexivity].
    + destruct Q as [|y q Q1 Q2]; [reflexivity|]; change (lowest byte) with 0%Z in *; change (highest byte) with 255%Z in *.
      cbv beta in P1, Q1; assert (0 <= (x - y) ^ 2 <= 65025)%Z by nia.
      cbn [squared_ints]; rewrite square_byte by lia; rewrite add_square_byte by lia; cbn [bind]; apply IH; [exact Q2|cbn in L; lia|].
      pose proof (Z.mod_pos_bound (s + (x - y) ^ 2) 256 ltac:(lia)); lia.
  - generalize 0%R; revert q' L'; induction p' as [|x p' IH]; intros [|y q'] L' s; try reflexivity; [cbn in L'; lia|cbn [squared_range]; apply IH; cbn in L'; lia].
  - intros r; unfold squared_ints_policy; replace (length p =? length q) with false by lia; reflexivity.
  - intros r; unfold squared_range_policy; replace (length p' =? length q') with false by lia; reflexivity.
Qed.
Print Assumptions C175_lengths.
(** The result has the type of the elements: on bytes a distance of 256 is 0, and on 16 bits the square itself overflows. *)
Theorem C175_narrow_refuted : (exists p q, of_type byte p /\ of_type byte q /\ length p = length q /\ squared_ints byte p q 0 <> Ok (total p q) /\ squared_ints byte p q 0 = Ok 0%Z /\ p <> q)
  /\ (exists t p q, bits t = 16%Z /\ signed t = false /\ of_type t p /\ of_type t q /\ length p = length q /\ squared_ints t p q 0 = UB).
Proof.
  split.
  - exists [16]%Z, [0]%Z; unfold of_type; repeat split; try (repeat constructor; cbn; lia); vm_compute; congruence.
  - exists (mkIty 16 false), [50000]%Z, [0]%Z; unfold of_type; repeat split; try (repeat constructor; cbn; lia); try reflexivity.
Qed.
Print Assumptions C175_narrow_refuted.
Example C175_case : squared_ints (mkIty 32 true) [1; -2; 30]%Z [4; 5; 6]%Z 0 = Ok 634%Z /\ total [1; -2; 30]%Z [4; 5; 6]%Z = 634%Z /\ squared_ints byte [1; 200; 30]%Z [4; 5; 6]%Z 0 = Ok (38610 mod 256)%Z
  /\ (forall r, squared_ints_policy (mkIty 32 true) [1; -2; 30]%Z [4; 5; 6]%Z r <-> r = Ok 634%Z) /\ squared_ints byte [1]%Z [4; 5]%Z 0 = Throw RuntimeError.
Proof.
  split; [reflexivity|]; split; [reflexivity|]; split; [reflexivity|]; split; [|reflexivity].
  apply (C175_exact (mkIty 32 true) [1; -2; 30]%Z [4; 5; 6]%Z); unfold of_type; try reflexivity; try (cbn; lia); repeat constructor; cbn; lia.
Qed.

(** ** C176 *)
(** Sorting: one result only, which holds each value as often as the image, starts with the minimum and ends with the maximum. *)
Theorem C176_sort {A} (le : A -> A -> Prop) im : (forall a b, {le a b} + {~ le a b}) -> (forall a b, le a b \/ le b a) -> (forall a b c, le a b -> le b c -> le a c) -> (forall a b, le a b -> le b a -> a = b) ->
  exists r, im_sort le im r /\ (forall r', im_sort le im r' -> r' = r)
  /\ (forall i j a b, i < j -> nth_error r i = Some a -> nth_error r j = Some b -> le a b).
Proof.
  intros De To Tr An.
  assert (E : forall l : list A, exists r, Permutation l r /\ StronglySorted le r).
  { induction l as [|a l (r & P & S)]; [exists []; split; constructor|].
    assert (I : exists r', Permutation (a :: r) r' /\ StronglySorted le r').
    { clear P l; induction S as [|b r S IH F]; [exists [a]; split; [reflexivity|repeat constructor]|].
      destruct (De a b) as [L|L].
      - exists (a :: b :: r); split; [reflexivity|]; constructor; [constructor; auto|]; constructor; [exact L|]; eapply Forall_impl; [|exact F]; intros c Hc; exact (Tr _ _ _ L Hc).
      - destruct IH as (r' & P & S'); exists (b :: r'); split; [rewrite perm_swap; apply perm_skip, P|]; constructor; [exact S'|].
        rewrite <- P; constructor; [destruct (To a b); tauto|exact F]. }
    destruct I as (r' & P' & S'); exists r'; split; [rewrite P; exact P'|exact S']. }
  assert (U : forall r, StronglySorted le r -> forall r', StronglySorted le r' -> Permutation r r' -> r = r').
  { induction r as [|a r IH]; intros S r' S' P; [apply Permutation_nil in P; auto|].
    destruct r' as [|a' r']; [apply Permutation_sym, Permutation_nil in P; discriminate|].
    inversion S as [|? ? S1 F1]; inversion S' as [|? ? S2 F2]; subst.
    assert (a = a').
    { pose proof (Permutation_in a P (or_introl eq_refl)) as [->|I1]; [reflexivity|]; pose proof (Permutation_in a' (Permutation_sym P) (or_introl eq_refl)) as [->|I2]; [reflexivity|].
      apply An; [exact (proj1 (Forall_forall _ _) F1 _ I2)|exact (proj1 (Forall_forall _ _) F2 _ I1)]. }
    subst a'; f_equal; apply IH; auto; eapply Permutation_cons_inv, P. }
  destruct (E (pix im)) as (r & P & S); exists r; split; [split; assumption|]; split.
  - intros r' (P' & S'); apply U; auto; rewrite <- P'; exact P.
  - clear - S; induction S as [|a r S IH F]; intros i j b c L Ei Ej; [destruct i; discriminate|].
    destruct j as [|j]; [lia|]; destruct i as [|i]; cbn in Ei, Ej; [injection Ei as <-; exact (proj1 (Forall_forall _ _) F _ (nth_error_In _ _ Ej))|].
    apply (IH i j); auto; lia.
Qed.
Print Assumptions C176_sort.
(** its first element is what min gives, its last what max gives *)
Theorem C176_ends (im : image Z) r : im_sort Z.le im r -> pix im <> [] ->
  im_min Z.ltb im = Ok (hd 0%Z r) /\ im_max Z.ltb im = Ok (last r 0%Z).
Proof.
  intros (P & S) N.
  assert (Nr : r <> []) by (intros ->; apply Permutation_sym, Permutation_nil in P; congruence).
  assert (Hd : In (hd 0%Z r) r /\ forall x, In x r -> (hd 0 r <= x)%Z).
  { destruct S as [|a r S F]; [congruence|]; cbn; split; [auto|]; intros x [->|I]; [lia|exact (proj1 (Forall_forall _ _) F _ I)]. }
  assert (La : In (last r 0%Z) r /\ forall x, In x r -> (x <= last r 0)%Z).
  { clear - S Nr; induction S as [|a r S IH F]; [congruence|]; destruct r as [|b r]; [cbn; split; [auto|]; intros x [->|[]]; lia|].
    destruct (IH ltac:(discriminate)) as [I1 I2]; change (last (a :: b :: r) 0%Z) with (last (b :: r) 0%Z); split; [right; exact I1|].
    intros x [->|I]; [exact (proj1 (Forall_forall _ _) F _ I1)|exact (I2 x I)]. }
  assert (W : weak_order Z.ltb) by (repeat split; intros; lia).
  destruct (C49_min Z.ltb im W N) as (m & Em & Im & Mm); destruct (C49_max Z.ltb im W N) as (m' & Em' & Im' & Mm').
  rewrite Em, Em'; split; f_equal.
  - pose proof (Mm (hd 0%Z r) (Permutation_in _ (Permutation_sym P) (proj1 Hd))); pose proof (proj2 Hd m (Permutation_in _ P Im)); lia.
  - pose proof (Mm' (last r 0%Z) (Permutation_in _ (Permutation_sym P) (proj1 La))); pose proof (proj2 La m' (Permutation_in _ P Im')); lia.
Qed.
Print Assumptions C176_ends.
(** The order of HSV colours: irreflexive, transitive, and two colours that are not smaller one than the other are equal. *)
Theorem C176_hsv_order a b c : hsv_less a a = false /\ (hsv_less a b = true -> hsv_less b c = true -> hsv_less a c = true)
  /\ (hsv_less a b = false -> hsv_less b a = false -> a = b) /\ (hsv_less a b = true -> hsv_less b a = false).
Proof.
  destruct a as [[a0 a1] a2], b as [[b0 b1] b2], c as [[c0 c1] c2]; unfold hsv_less, rltb.
  split; [|split; [|split]].
  - repeat destruct (Rlt_dec _ _); try lra; reflexivity.
  - repeat destruct (Rlt_dec _ _); try discriminate; intros; try reflexivity; exfalso; lra.
  - repeat destruct (Rlt_dec _ _); try discriminate; intros _ _; repeat f_equal; lra.
  - repeat destruct (Rlt_dec _ _); try discriminate; intros; try reflexivity; exfalso; lra.
Qed.
Print Assumptions C176_hsv_order.
Example C176_case : im_sort Z.le (mkImage [2; 2] [5; -1; 5; 3]%Z) [-1; 3; 5; 5]%Z /\ hsv_less (10, 1, 0)%R (10, 2, -1)%R = true.
Proof.
  split; [split|].
  - change (Permutation [5; -1; 5; 3]%Z [-1; 3; 5; 5]%Z); rewrite (perm_swap (-1)%Z 5%Z); apply perm_skip; rewrite (perm_skip 5%Z (perm_swap 3%Z 5%Z [])); apply perm_swap.
  - repeat constructor; lia.
  - unfold hsv_less, rltb; repeat destruct (Rlt_dec _ _); try lra; reflexivity.
Qed.

(** ** C177 *)
(** One command on the command line does what the same words on a line of the session do, unless the optimiser takes it for a
    multiplication by one. *)
Theorem C177_same V F reg is_one name args st : Forall plain (name :: args) -> name <> lit "exit" -> name <> lit "quit" ->
  ~ (name = lit "multiply" /\ 3 <= length args /\ is_one (last args []) = true) ->
  run_line V F reg is_one (write_words (name :: args)) st = Some (run_once reg name args st).
Proof.
  intros P N1 N2 N3; unfold run_line, parse_line, run_once, execute.
  pose proof (C63_words [name :: args]) as W; cbn [write_line] in W; rewrite W by (constructor; [split; [discriminate|exact P]|constructor]).
  cbn [filter]; assert (Sf : split_final [name :: args] = ([name :: args], [])) by (destruct args; reflexivity).
  rewrite Sf; cbv beta iota; cbn [build].
  assert (Ex : eqs name "exit"%string || eqs name "quit"%string = false).
  { apply Bool.orb_false_iff; split; apply Bool.not_true_iff_false; intros E; apply eqs_eq in E; contradiction. }
  rewrite Ex; unfold get_schema; destruct (CliModel.map_find name reg) as [[sc h]|] eqn:Ef; cbn [option_map fst]; [|reflexivity].
  rewrite !Bool.andb_false_r; cbn [app length Nat.mul Nat.add optimize run_pass pass]; unfold rule_one; cbn [fst snd].
  replace (eqs name "multiply"%string && (3 <=? length args) && is_one (last args [])) with false; cbn [negb].
  - unfold run_pipeline; cbn [fold_left fst snd]; unfold execute; rewrite Ef; reflexivity.
  - symmetry; apply Bool.not_true_iff_false; intros E; apply N3; apply Bool.andb_true_iff in E as [E E3]; apply Bool.andb_true_iff in E as [E1 E2]; apply eqs_eq in E1; repeat split; auto; lia.
Qed.
Print Assumptions C177_same.
(** A command that is not registered changes nothing. *)
Theorem C177_unknown V F (reg : registry V F) name args st : CliModel.map_find name reg = None -> run_once reg name args st = st.
Proof. intros E; unfold run_once, execute; rewrite E; reflexivity. Qed.
Print Assumptions C177_unknown.
(** The words of the command line may hold blanks and bars; a line of the session may not. *)
Definition keep_args (args : list str) (st : state nat (list str)) : state nat (list str) := mkState nat (list str) (vars _ _ st) args.
Definition keep_registry : registry nat (list str) := [(lit "load", (mkSchema (-1) (-1), keep_args))].
Theorem C177_blanks_refuted : exists V F (reg : registry V F) is_one name args st, CliModel.map_find name reg <> None /\ plain name
  /\ run_line V F reg is_one (write_words (name :: args)) st <> Some (run_once reg name args st).
Proof.
  exists nat, (list str), keep_registry, (fun _ => false), (lit "load"), [lit "a b"], (mkState nat (list str) [] []).
  split; [vm_compute; discriminate|]; split; [split; [discriminate|repeat constructor; discriminate]|].
  vm_compute; intros E; injection E as E; discriminate.
Qed.
Print Assumptions C177_blanks_refuted.
Example C177_case : run_line nat (list str) keep_registry (fun _ => false) (lit "load a.bmp $x") (mkState nat (list str) [] []) = Some (run_once keep_registry (lit "load") [lit "a.bmp"; lit "$x"] (mkState nat (list str) [] []))
  /\ run_once keep_registry (lit "load") [lit "a.bmp"; lit "$x"] (mkState nat (list str) [] []) <> mkState nat (list str) [] [].
Proof. split; [vm_compute; reflexivity|vm_compute; discriminate]. Qed.

(** ** C178 *)
Lemma blocks_pos w n : 0 < n -> n <= w -> 0 < w / n /\ 0 < w / (w / n).
Proof.
  intros N L; assert (0 < w / n) by (apply Nat.div_str_pos; lia); split; [assumption|].
  apply Nat.div_str_pos; split; [assumption|]; apply Nat.div_le_upper_bound; nia.
Qed.
(** The values are those of the plane; the extents are the number of blocks times the extent of one. *)
Theorem C178_values sg sg' N1 N2 im w h f : sched_ok sg -> sched_ok sg' -> Repr im w h f -> 0 < N1 -> 0 < N2 -> N1 <= w -> N2 <= h -> fits w -> fits h ->
  exists o, blockwise sg sg' N1 N2 im = Ok o /\ Repr o (w / N1 * (w / (w / N1))) (h / N2 * (h / (h / N2))) f.
Proof.
  intros Hs Hs' HR P1 P2 L1 L2 Fw Fh; destruct (blocks_pos w N1 P1 L1) as [X1 X2]; destruct (blocks_pos h N2 P2 L2) as [Y1 Y2].
  destruct (split_Repr 0%R sg Hs im w h f (w / N1) (h / N2)) as (cells & E & HF); auto.
  unfold blockwise; dims2 HR; unfold udiv; replace (N1 =? 0) with false by lia; replace (N2 =? 0) with false by lia; cbn [bind]; rewrite E; cbn [bind recursive_transform].
  set (bx := w / (w / N1)) in *; set (by_ := h / (h / N2)) in *; set (xs := w / N1) in *; set (ys := h / N2) in *.
  set (T := fun element => let* t := dct2 (fun v => v) sg element in idct2 (fun v => v) sg' t).
  assert (C : forall y ks row, Forall2 (fun x cell => Repr cell bx by_ (fun a b => f (x * bx + a) (y * by_ + b))) ks row ->
    exists row', mapM T row = Ok row' /\ Forall2 (fun x cell => Repr cell bx by_ (fun a b => f (x * bx + a) (y * by_ + b))) ks row').
  { intros y ks row H; induction H as [|k c ks row Rc H (row' & Er & Fr)]; [exists []; split; [reflexivity|constructor]|].
    destruct (C46_idct_dct (fun v => v) sg sg' c bx by_ _ Hs Hs' Rc X2 Y2) as (t & o & E1 & E2 & Ro).
    exists (o :: row'); cbn [mapM]; unfold T at 1; rewrite E1; cbn [bind]; rewrite E2; cbn [bind]; rewrite Er; split; [reflexivity|]; constructor; [exact Ro|exact Fr]. }
  assert (D : exists cells', mapM (mapM T) cells = Ok cells' /\ Forall2 (fun y row =>
      Forall2 (fun x cell => Repr cell bx by_ (fun a b => f (x * bx + a) (y * by_ + b))) (seq 0 xs) row) (seq 0 ys) cells').
  { clear E; induction HF as [|k r ks cs Hr H (cs' & Er & Fr)]; [exists []; split; [reflexivity|constructor]|].
    destruct (C k _ r Hr) as (r' & E1 & F1); exists (r' :: cs'); cbn [mapM]; rewrite E1; cbn [bind]; rewrite Er; split; [reflexivity|]; constructor; assumption. }
  destruct D as (cells' & E2 & HF'); change (exists o, (let* bl := mapM (mapM T) cells in concat 0%R bl) = Ok o /\ Repr o (xs * bx) (ys * by_) f); rewrite E2; cbn [bind].
  destruct (concat_blocks 0%R f bx by_ xs ys cells') as (o & Eo & Ro); auto; exists o; auto.
Qed.
Print Assumptions C178_values.
(** Where the blocks are of N1 by N2 pixels exactly, the plane comes back. *)
Theorem C178_identity sg sg' N1 N2 im w h f a b : sched_ok sg -> sched_ok sg' -> Repr im w h f -> w = a * N1 -> h = b * N2 -> 0 < w -> 0 < h -> fits w -> fits h ->
  blockwise sg sg' N1 N2 im = Ok im.
Proof.
  intros Hs Hs' HR Ew Eh Pw Ph Fw Fh; assert (0 < a /\ 0 < N1 /\ 0 < b /\ 0 < N2) by nia.
  destruct (C178_values sg sg' N1 N2 im w h f) as (o & E & Ro); auto; try nia.
  assert (w / N1 = a) by (subst; apply Nat.div_mul; lia); assert (h / N2 = b) by (subst; apply Nat.div_mul; lia).
  assert (Ww : w / N1 * (w / (w / N1)) = w) by (rewrite H0; subst w; rewrite (Nat.mul_comm a N1), Nat.div_mul by lia; lia).
  assert (Wh : h / N2 * (h / (h / N2)) = h) by (rewrite H1; subst h; rewrite (Nat.mul_comm b N2), Nat.div_mul by lia; lia).
  rewrite Ww, Wh in Ro; rewrite E; f_equal; apply (Repr_unique o im w h f f); auto.
Qed.
Print Assumptions C178_identity.
(** An image of 23 columns loses one, and an image of less than a block ends in a division by zero. *)
Theorem C178_extents_refuted sg sg' : sched_ok sg -> sched_ok sg' ->
  (exists im w h f o, Repr im w h f /\ 8 <= w /\ 8 <= h /\ blockwise sg sg' 8 8 im = Ok o /\ Repr o 22 8 f /\ w = 23 /\ h = 8)
  /\ (forall N1 N2 im w h f, Repr im w h f -> 0 < N2 -> w < N1 -> blockwise sg sg' N1 N2 im = UB).
Proof.
  intros Hs Hs'; split.
  - pose proof (img_Repr 23 8 (fun x y => INR (x + y))) as HR.
    destruct (C178_values sg sg' 8 8 _ 23 8 _ Hs Hs' HR) as (o & E & Ro); try (unfold fits, two64; lia).
    exists (img 23 8 (fun x y => INR (x + y))), 23, 8, (fun x y => INR (x + y)), o; split; [exact HR|]; split; [lia|]; split; [lia|]; split; [exact E|]; split; [exact Ro|]; split; reflexivity.
  - intros N1 N2 im w h f HR P L; unfold blockwise; dims2 HR; unfold udiv at 1 2; replace (N1 =? 0) with false by lia; replace (N2 =? 0) with false by lia; cbn [bind].
    rewrite (Nat.div_small w N1 L); unfold split; dims2 HR; reflexivity.
Qed.
Print Assumptions C178_extents_refuted.

Example C178_case : blockwise grid grid 8 8 (img 16 8 (fun x y => INR (x + y))) = Ok (img 16 8 (fun x y => INR (x + y))).
Proof. apply (C178_identity grid grid 8 8 _ 16 8 _ 2 1 sched_ok_grid sched_ok_grid (img_Repr 16 8 _)); unfold fits, two64; lia. Qed.

(** ** C67, append *)
Theorem C67_append {A} (a : list A) (t : A) : append a t = a ++ [t].
Proof.
  unfold append; f_equal; induction a as [|x a IH]; [reflexivity|]; cbn [length seq map nth]; f_equal; rewrite <- seq_shift, map_map; exact IH.
Qed.
Print Assumptions C67_append.
Example C67_append_case : append [1; 2] 3 = [1; 2; 3].
Proof. reflexivity. Qed.
