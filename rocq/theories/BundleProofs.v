(** BundleProofs.v - lemmas about the files of a saved workspace. *)
From Coq Require Import Ascii String Sorting.Sorted Sorting.Permutation ZifyBool ZifyNat.
From Verif Require Import Base ImageModel ImageFacts BmpModel BmpProofs CliModel CliProofs PropBmp BundleModel.
Open Scope nat_scope.
Ltac Zify.zify_post_hook ::= Z.div_mod_to_equations.

Lemma for_list_keep {I S} (P : S -> Prop) (l : list I) (body : I -> S -> res S) :
  (forall i s s', In i l -> P s -> body i s = Ok s' -> P s') ->
  forall s s', P s -> for_list l body s = Ok s' -> P s'.
Proof.
  induction l as [|i l IH]; intros H s s' Ps E; cbn [for_list] in E.
  - injection E as <-; exact Ps.
  - destruct (body i s) as [t| |] eqn:B; cbn [bind] in E; try discriminate.
    apply (IH (fun j a b Hj => H j a b (or_intror Hj)) t s'); auto. apply (H i s t); auto; left; reflexivity.
Qed.

(** ** doubles *)
Definition word64 (d : Z) : Prop := (0 <= d < 2 ^ 64)%Z.

Lemma double_bytes_value d : word64 d ->
  (byte d 0 + byte d 1 * 2 ^ 8 + byte d 2 * 2 ^ 16 + byte d 3 * 2 ^ 24 + byte d 4 * 2 ^ 32 + byte d 5 * 2 ^ 40 + byte d 6 * 2 ^ 48
   + byte d 7 * 2 ^ 56)%Z = d.
Proof.
  unfold word64, byte; intros H.
  change (8 * Z.of_nat 0)%Z with 0%Z; change (8 * Z.of_nat 1)%Z with 8%Z; change (8 * Z.of_nat 2)%Z with 16%Z;
  change (8 * Z.of_nat 3)%Z with 24%Z; change (8 * Z.of_nat 4)%Z with 32%Z; change (8 * Z.of_nat 5)%Z with 40%Z;
  change (8 * Z.of_nat 6)%Z with 48%Z; change (8 * Z.of_nat 7)%Z with 56%Z.
  assert (S : forall k, (0 <= k)%Z -> (d / 2 ^ (k + 8) = d / 2 ^ k / 256)%Z).
  { intros k Hk. rewrite Z.pow_add_r, <- Z.div_div by (try lia; apply Z.pow_pos_nonneg; lia). reflexivity. }
  pose proof (S 0%Z ltac:(lia)) as S0; pose proof (S 8%Z ltac:(lia)) as S1; pose proof (S 16%Z ltac:(lia)) as S2; pose proof (S 24%Z ltac:(lia)) as S3;
  pose proof (S 32%Z ltac:(lia)) as S4; pose proof (S 40%Z ltac:(lia)) as S5; pose proof (S 48%Z ltac:(lia)) as S6.
  change (0 + 8)%Z with 8%Z in S0; change (8 + 8)%Z with 16%Z in S1; change (16 + 8)%Z with 24%Z in S2; change (24 + 8)%Z with 32%Z in S3;
  change (32 + 8)%Z with 40%Z in S4; change (40 + 8)%Z with 48%Z in S5; change (48 + 8)%Z with 56%Z in S6.
  assert (S7 : (d / 2 ^ 56 < 256)%Z) by (apply Z.div_lt_upper_bound; lia).
  assert (S8 : (0 <= d / 2 ^ 56)%Z) by (apply Z.div_pos; lia).
  rewrite Z.pow_0_r, Z.div_1_r in *.
  generalize dependent (d / 2 ^ 8)%Z; generalize dependent (d / 2 ^ 16)%Z; generalize dependent (d / 2 ^ 24)%Z;
  generalize dependent (d / 2 ^ 32)%Z; generalize dependent (d / 2 ^ 40)%Z; generalize dependent (d / 2 ^ 48)%Z; generalize dependent (d / 2 ^ 56)%Z.
  clear S. intros; lia.
Qed.

Lemma doubles_bytes cells : forall fuel, length cells <= fuel -> Forall word64 cells -> doubles fuel (flat_map double_bytes cells) = cells.
Proof.
  induction cells as [|d cells IH]; intros fuel L F; destruct fuel as [|fuel]; cbn [length] in L; try lia; try reflexivity.
  inversion F; subst. cbn [flat_map]. unfold double_bytes at 1. cbn [seq map app]. cbn [doubles].
  rewrite double_bytes_value by assumption. rewrite IH by (assumption || lia). reflexivity.
Qed.

Lemma flat_map_bytes_length cells : length (flat_map double_bytes cells) = 8 * length cells.
Proof. induction cells as [|d cells IH]; [reflexivity|]. cbn [flat_map]. rewrite app_length, IH. cbn [length]. unfold double_bytes; rewrite map_length, seq_length. lia. Qed.

Lemma cells_of_file h cells : length h = 54 -> Forall word64 cells -> cells_of (file_of (h, cells)) = cells.
Proof.
  intros L F. unfold cells_of, file_of; cbn [fst snd].
  rewrite skipn_app, skipn_all2 by lia. rewrite L, Nat.sub_diag; cbn [app skipn].
  apply doubles_bytes; [|exact F]. rewrite app_length, flat_map_bytes_length. lia.
Qed.

Lemma le32_app h r k : k + 4 <= length h -> le32 (h ++ r) k = le32 h k.
Proof.
  intros H. rewrite !le32_word by (rewrite ?app_length; lia). unfold word. rewrite !app_nth1 by lia. reflexivity.
Qed.
Lemma dread_app {A} (zero : A) h r cells : length h = 54 -> dread zero (h ++ r) cells = dread zero h cells.
Proof. intros L. unfold dread. rewrite !le32_app by lia. reflexivity. Qed.
Lemma hread_app {A} (zero : A) h r cells : length h = 54 -> hread zero (h ++ r) cells = hread zero h cells.
Proof. intros L. unfold hread. rewrite !le32_app by lia. reflexivity. Qed.

Lemma vset_forall {A} (P : A -> Prop) l k v l' : Forall P l -> P v -> vset l k v = Ok l' -> Forall P l'.
Proof.
  unfold vset; intros F Pv E. destruct (k <? length l); [|discriminate]. injection E as <-.
  revert k; induction F as [|a l Pa F IH]; intros k; destruct k; cbn; constructor; auto.
Qed.
Lemma vget_forall {A} (P : A -> Prop) l k v : Forall P l -> vget l k = Ok v -> P v.
Proof.
  unfold vget; intros F E. destruct (nth_error l k) as [a|] eqn:N; [|discriminate]. injection E as <-.
  eapply Forall_forall in F; [exact F|]. eapply nth_error_In; exact N.
Qed.
Lemma at_forall {A} (P : A -> Prop) (im : image A) idx v : Forall P (pix im) -> at_ im idx = Ok v -> P v.
Proof. unfold at_; intros F E. destruct (loc_checked im idx) as [k| |]; cbn [bind] in E; try discriminate. eapply vget_forall; eauto. Qed.

Lemma firstn_forall {A} (P : A -> Prop) n (l : list A) : Forall P l -> Forall P (firstn n l).
Proof. intros F; apply Forall_forall; intros x Hx. eapply Forall_forall in F; [exact F|]. rewrite <- (firstn_skipn n l). apply in_or_app; left; exact Hx. Qed.

Lemma dwrite_cells junk im h cells :
  (forall n, Forall word64 (junk n)) -> Forall word64 (pix im) -> dwrite junk im = Ok (h, cells) -> Forall word64 cells.
Proof.
  intros J P E. unfold dwrite, darray_to_raw in E.
  destruct (get_width im) as [xs| |]; cbn [bind] in E; try discriminate. destruct (get_height im) as [ys| |]; cbn [bind] in E; try discriminate.
  match type of E with bind ?r _ = _ => destruct r as [raw| |] eqn:R; cbn [bind] in E; try discriminate end.
  destruct (_ || _)%bool; [discriminate|]. injection E as _ <-. apply firstn_forall.
  revert R. apply for_list_keep; [|apply J]. intros [y x] s s' _ Fs B; cbn [fst snd] in B.
  destruct (at_ im [x; y]) as [v| |] eqn:A; cbn [bind] in B; try discriminate.
  eapply vset_forall; [exact Fs| |exact B]. eapply at_forall; eauto.
Qed.
Lemma hwrite_cells junk im h cells :
  (forall n, Forall word64 (junk n)) -> Forall (Forall word64) (pix im) -> hwrite junk im = Ok (h, cells) -> Forall word64 cells.
Proof.
  intros J P E. unfold hwrite, harray_to_raw in E.
  destruct (get_width im) as [xs| |]; cbn [bind] in E; try discriminate. destruct (get_height im) as [ys| |]; cbn [bind] in E; try discriminate.
  match type of E with bind ?r _ = _ => destruct r as [raw| |] eqn:R; cbn [bind] in E; try discriminate end.
  destruct (_ || _)%bool; [discriminate|]. injection E as _ <-. apply firstn_forall.
  revert R. apply for_list_keep; [|apply J]. intros [y x] s s' _ Fs B; cbn [fst snd] in B.
  revert B. unfold for_range. apply for_list_keep; [|exact Fs]. intros c t t' _ Ft B.
  destruct (at_ im [x; y]) as [px| |] eqn:A; cbn [bind] in B; try discriminate.
  destruct (vget px c) as [v| |] eqn:G; cbn [bind] in B; try discriminate.
  eapply vset_forall; [exact Ft| |exact B]. apply (vget_forall word64 px c); [|exact G]. eapply at_forall in P; eauto.
Qed.

(** the header that is written *)
Lemma dwrite_header {A} (junk : nat -> list A) im w h hd cells : dims im = [w; h] -> dwrite junk im = Ok (hd, cells) ->
  exists fsz, hd = bmp_header fsz (Z.of_nat w) (Z.of_nat h) /\ (Z.of_nat w < 2 ^ 31)%Z /\ (Z.of_nat h < 2 ^ 31)%Z.
Proof.
  intros D E. unfold dwrite in E. destruct (darray_to_raw junk im) as [raw| |]; cbn [bind] in E; try discriminate.
  assert (W : get_width im = Ok w) by (unfold get_width; rewrite D; reflexivity).
  assert (H : get_height im = Ok h) by (unfold get_height, get_dimensionality; rewrite D; reflexivity).
  rewrite W, H in E; cbn [bind] in E.
  destruct (Z.leb_spec (2 ^ 31) (Z.of_nat (w + 8))), (Z.leb_spec (2 ^ 31) (Z.of_nat h)); cbn [orb] in E; try discriminate.
  injection E as <- _. eexists; split; [reflexivity|]; lia.
Qed.
Lemma hwrite_header {A} (junk : nat -> list A) im w h hd cells : dims im = [w; h] -> hwrite junk im = Ok (hd, cells) ->
  exists fsz, hd = bmp_header fsz (Z.of_nat w) (Z.of_nat h) /\ (Z.of_nat w < 2 ^ 31)%Z /\ (Z.of_nat h < 2 ^ 31)%Z.
Proof.
  intros D E. unfold hwrite in E. destruct (harray_to_raw junk im) as [raw| |]; cbn [bind] in E; try discriminate.
  assert (W : get_width im = Ok w) by (unfold get_width; rewrite D; reflexivity).
  assert (H : get_height im = Ok h) by (unfold get_height, get_dimensionality; rewrite D; reflexivity).
  rewrite W, H in E; cbn [bind] in E.
  destruct (Z.leb_spec (2 ^ 31) (Z.of_nat (3 * w + 8))), (Z.leb_spec (2 ^ 31) (Z.of_nat h)); cbn [orb] in E; try discriminate.
  injection E as <- _. eexists; split; [reflexivity|]; lia.
Qed.
Lemma extent_written fsz w h r : (Z.of_nat w < 2 ^ 31)%Z -> (Z.of_nat h < 2 ^ 31)%Z ->
  extent_failed (bmp_header fsz (Z.of_nat w) (Z.of_nat h) ++ r) = false.
Proof.
  intros Bw Bh. unfold extent_failed. rewrite !le32_app by (rewrite header_length; lia).
  rewrite le32_header_18, le32_header_22 by lia. rewrite !s32_small by lia. lia.
Qed.

(** ** values *)
(** images that the file formats can hold *)
Definition storable (v : value) : Prop :=
  match v with
  | Rgb im => exists w h, rgb_image im w h /\ (Z.of_nat (stride24 w) < 2 ^ 31)%Z /\ (Z.of_nat h < 2 ^ 31)%Z
                /\ (Z.of_nat (stride24 w * h) mod 2 ^ 32 < 2 ^ 31)%Z
  | Dbl im => exists w h, dims im = [w; h] /\ length (pix im) = w * h /\ Forall word64 (pix im)
                /\ (Z.of_nat (w + 8) < 2 ^ 31)%Z /\ (Z.of_nat h < 2 ^ 31)%Z /\ (Z.of_nat ((w + 8) * h) < 2 ^ 31)%Z
  | Hsv im => exists w h, dims im = [w; h] /\ length (pix im) = w * h /\ Forall (fun px => length px = 3 /\ Forall word64 px) (pix im)
                /\ (Z.of_nat (3 * w + 8) < 2 ^ 31)%Z /\ (Z.of_nat h < 2 ^ 31)%Z /\ (Z.of_nat ((3 * w + 8) * h) < 2 ^ 31)%Z
  | Other _ => False
  end.
Definition ext_of (v : value) : str := match v with Rgb _ => lit ".bmp" | Dbl _ => lit ".dbmp" | Hsv _ => lit ".hsv" | Other _ => [] end.
Definition is_rgb (v : value) : bool := match v with Rgb _ => true | _ => false end.
Definition is_other (v : value) : bool := match v with Other _ => true | _ => false end.

Lemma split_dot_spec r ext : forall e, Forall (fun c => c <> dot) e -> split_dot (e ++ dot :: r) ext = Some (rev r, dot :: rev e ++ ext).
Proof.
  intros e F; revert ext; induction F as [|c e N F IH]; intros ext; cbn [app split_dot].
  - reflexivity.
  - destruct (Ascii.eqb_spec c dot); [contradiction|]. rewrite IH. cbn [rev]. rewrite <- app_assoc. reflexivity.
Qed.
Lemma stem_extension_app n e : n <> [] -> Forall (fun c => c <> dot) e -> e <> [] -> stem_extension (n ++ dot :: e) = (n, dot :: e).
Proof.
  intros N F E. unfold stem_extension.
  destruct (eqs_spec (n ++ dot :: e) (lit "..")) as [X|_].
  - exfalso. destruct n as [|a [|b n]]; [contradiction| |].
    + cbn in X. injection X as _ X. contradiction.
    + cbn in X. injection X as _ _ X. destruct n; discriminate.
  - rewrite rev_app_distr. cbn [rev]. rewrite <- app_assoc. cbn [app].
    rewrite split_dot_spec by (apply Forall_rev; exact F). rewrite rev_involutive, app_nil_r, rev_involutive.
    destruct n; [contradiction|reflexivity].
Qed.
Lemma stem_ext_of n v : n <> [] -> is_other v = false -> stem_extension (n ++ ext_of v) = (n, ext_of v).
Proof.
  intros N O. destruct v; try discriminate; cbn [ext_of lit list_ascii_of_string];
    (apply stem_extension_app; [exact N| |discriminate]); repeat constructor; discriminate.
Qed.

Lemma encode_load alloc junk junk8 csv ppm v : storable v ->
  (forall n, alloc n = true) -> fresh junk -> fresh junk8 -> (forall n, Forall word64 (junk8 n)) ->
  exists bytes, encode junk junk8 v = Some (Ok bytes, ext_of v)
    /\ forall n avail, n <> [] -> 2 <= avail ->
       load_entry alloc junk csv ppm avail (n ++ ext_of v, bytes) = Some (Ok v, if is_rgb v then avail - 1 else avail).
Proof.
  intros S HA HJ HJ8 H8. destruct v as [im|im|im|k]; cbn [storable] in S.
  - destruct S as (w & h & R & B1 & B2 & B3).
    destruct (C37_round_trip_partial alloc junk junk im w h R HJ HJ HA B1 B2 B3) as (file & E & E').
    exists file. cbn [encode is_rgb]. rewrite E. split; [reflexivity|]. intros n avail N A.
    unfold load_entry. cbn [fst snd]. rewrite (stem_ext_of n (Rgb im)) by auto. cbn [fst snd].
    change (eqs (ext_of (Rgb im)) (lit ".bmp")) with true. cbn iota.
    destruct avail as [|[|a]]; try lia. unfold typed, bmp_open. cbn [fst snd]. rewrite E'. cbn [bind]. reflexivity.
  - destruct S as (w & h & D & L & F & B1 & B2 & B3).
    destruct (C74_double_image Z 0%Z junk8 im w h D L HJ8 B3 B1 B2) as (hd & cells & E & Lh & Lc & E').
    exists (file_of (hd, cells)). cbn [encode is_rgb]. rewrite E. cbn [bind]. split; [reflexivity|]. intros n avail N A.
    unfold load_entry. cbn [fst snd]. rewrite (stem_ext_of n (Dbl im)) by auto. cbn [fst snd].
    change (eqs (ext_of (Dbl im)) (lit ".bmp")) with false. change (eqs (ext_of (Dbl im)) (lit ".dbmp")) with true. cbn iota.
    destruct avail as [|[|a]]; try lia. unfold typed, double_open, two_opens. cbn [fst snd].
    rewrite cells_of_file by (auto; eapply dwrite_cells; eauto).
    destruct (dwrite_header junk8 im w h hd cells D E) as (fsz & -> & Bw & Bh).
    unfold file_of; cbn [fst snd]. rewrite extent_written by auto. rewrite dread_app by reflexivity. rewrite E'. reflexivity.
  - destruct S as (w & h & D & L & F & B1 & B2 & B3).
    assert (F3 : Forall (fun px : list Z => length px = 3) (pix im)) by (eapply Forall_impl; [|exact F]; intros px [? ?]; assumption).
    assert (FW : Forall (Forall word64) (pix im)) by (eapply Forall_impl; [|exact F]; intros px [? ?]; assumption).
    destruct (C74_hsv_image Z 0%Z junk8 im w h D L F3 HJ8 B3 B1 B2) as (hd & cells & E & Lc & E').
    exists (file_of (hd, cells)). cbn [encode is_rgb]. rewrite E. cbn [bind]. split; [reflexivity|]. intros n avail N A.
    unfold load_entry. cbn [fst snd]. rewrite (stem_ext_of n (Hsv im)) by auto. cbn [fst snd].
    change (eqs (ext_of (Hsv im)) (lit ".bmp")) with false. change (eqs (ext_of (Hsv im)) (lit ".dbmp")) with false.
    change (eqs (ext_of (Hsv im)) (lit ".hsv")) with true. cbn iota.
    destruct avail as [|[|a]]; try lia. unfold typed, hsv_open, two_opens. cbn [fst snd].
    destruct (hwrite_header junk8 im w h hd cells D E) as (fsz & Eh & Bw & Bh).
    assert (Lh : length hd = 54) by (rewrite Eh; reflexivity).
    rewrite cells_of_file by (auto; eapply hwrite_cells; eauto). subst hd.
    unfold file_of; cbn [fst snd]. rewrite extent_written by auto. rewrite hread_app by reflexivity. rewrite E'. reflexivity.
  - contradiction.
Qed.

(** ** paths *)
Lemma drop_prefix_spec p : forall s r, drop_prefix p s = Some r <-> s = p ++ r.
Proof.
  induction p as [|c p IH]; intros s r; cbn [drop_prefix app].
  - split; [intros E; injection E as ->; reflexivity|intros ->; reflexivity].
  - destruct s as [|d s]; [split; discriminate|]. destruct (Ascii.eqb_spec c d) as [->|N].
    + rewrite IH. split; [intros ->; reflexivity|intros E; injection E as ->; reflexivity].
    + split; [discriminate|]. intros E; injection E as -> ->; contradiction.
Qed.
Lemma has_slash_false s : has_slash s = false <-> ~ In slash s.
Proof.
  unfold has_slash. rewrite <- not_true_iff_false, existsb_exists. split.
  - intros H I; apply H; exists slash; split; [exact I|apply Ascii.eqb_refl].
  - intros H (c & I & E). apply Ascii.eqb_eq in E; subst; contradiction.
Qed.
Lemma in_listing dir f fn b : In (fn, b) (listing dir f) <-> In (dir_prefix dir ++ fn, b) f /\ fn <> [] /\ ~ In slash fn.
Proof.
  unfold listing. rewrite in_flat_map. split.
  - intros ([p b'] & I & J); cbn [fst snd] in J. destruct (drop_prefix (dir_prefix dir) p) as [q|] eqn:D; [|contradiction].
    destruct q as [|c q]; [contradiction|]. destruct (has_slash (c :: q)) eqn:HS; [contradiction|].
    destruct J as [J|[]]; injection J as <- <-. apply drop_prefix_spec in D; subst p.
    split; [exact I|]. split; [discriminate|]. apply has_slash_false; exact HS.
  - intros (I & N & HS). exists (dir_prefix dir ++ fn, b). split; [exact I|]. cbn [fst snd].
    assert (D : drop_prefix (dir_prefix dir) (dir_prefix dir ++ fn) = Some fn) by (apply drop_prefix_spec; reflexivity).
    rewrite D. destruct fn as [|c q]; [contradiction|]. apply has_slash_false in HS. rewrite HS. left; reflexivity.
Qed.
Lemma path_append_name dir n : n <> [] -> ~ In slash n -> path_append dir n = dir_prefix dir ++ n.
Proof.
  intros N S. unfold path_append, starts_slash. destruct n as [|c n]; [contradiction|].
  destruct (Ascii.eqb_spec c slash) as [->|]; [|reflexivity]. exfalso; apply S; left; reflexivity.
Qed.
Lemma ext_of_slash v : ~ In slash (ext_of v).
Proof. destruct v; cbn; intuition discriminate. Qed.
(** two variables have different files *)
Lemma ext_inj n v n' v' : is_other v = false -> is_other v' = false -> n ++ ext_of v = n' ++ ext_of v' -> n = n' /\ ext_of v = ext_of v'.
Proof.
  intros O O' E. assert (X : ext_of v = ext_of v').
  { apply (f_equal (@rev ascii)) in E. rewrite !rev_app_distr in E.
    destruct v, v'; try discriminate; cbn in *; try reflexivity; exfalso; inversion E. }
  split; [|exact X]. rewrite X in E. apply app_inv_tail in E; exact E.
Qed.

(** ** saving *)
Definition touched (dir : str) (w : ws) (p : str) : Prop :=
  exists n v, In (n, item v) w /\ is_other v = false /\ p = dir_prefix dir ++ n ++ ext_of v.
Definition written (junk junk8 : nat -> list Z) (dir : str) (w : ws) (p : str) (b : list Z) : Prop :=
  exists n v, In (n, item v) w /\ is_other v = false /\ p = dir_prefix dir ++ n ++ ext_of v /\ encode junk junk8 v = Some (Ok b, ext_of v).

Lemma in_item n v (w : ws) : In (n, item v) w <-> exists t, In (n, (t, v)) w /\ (t, v) = item v.
Proof.
  split.
  - intros I. exists (fst (item v)). split; [exact I|reflexivity].
  - intros (t & I & E). rewrite <- E. exact I.
Qed.

Lemma save_vars_spec junk junk8 can_create dir w : forall f,
  sorted_map w -> Forall (fun e => snd e = item (snd (snd e))) w -> sorted_map f ->
  (forall n v, In (n, item v) w -> is_other v = false ->
     n <> [] /\ ~ In slash n /\ (exists b, encode junk junk8 v = Some (Ok b, ext_of v)) /\ can_create (dir_prefix dir ++ n ++ ext_of v) = true) ->
  exists f', save_vars junk junk8 can_create dir w f = (f', Ok tt) /\ sorted_map f'
    /\ (forall p b, written junk junk8 dir w p b -> map_find p f' = Some b)
    /\ (forall p, ~ touched dir w p -> map_find p f' = map_find p f).
Proof.
  induction w as [|[n [t v]] w IH]; intros f SW FI SF H.
  - exists f. split; [reflexivity|]. split; [exact SF|]. split.
    + intros p b (n & v & [] & _).
    + reflexivity.
  - inversion SW as [|? ? SW' FW]; subst. inversion FI as [|? ? EI FI']; subst. cbn [fst snd] in EI, FW. subst.
    assert (H' : forall n0 v0, In (n0, item v0) w -> is_other v0 = false ->
      n0 <> [] /\ ~ In slash n0 /\ (exists b, encode junk junk8 v0 = Some (Ok b, ext_of v0)) /\ can_create (dir_prefix dir ++ n0 ++ ext_of v0) = true)
      by (intros n0 v0 I; apply H; right; exact I).
    destruct (is_other v) eqn:O.
    + destruct (IH f SW' FI' SF H') as (f' & E & S' & A & B). exists f'. destruct v as [| | |k]; try discriminate. cbn [save_vars encode]. split; [exact E|].
      split; [exact S'|]. split.
      * intros p b (n0 & v0 & [I|I] & O0 & R); [injection I as _ _ Iv; rewrite <- Iv in O0; discriminate|]. apply A. exists n0, v0. auto.
      * intros p T. apply B. intros (n0 & v0 & I & R). apply T. exists n0, v0. split; [right; exact I|exact R].
    + destruct (H n v (or_introl (f_equal (pair n) EI)) O) as (N & NS & (b0 & Eb) & C).
      assert (Sf : sorted_map (map_set (dir_prefix dir ++ n ++ ext_of v) b0 f)) by (apply set_sorted; exact SF).
      destruct (IH _ SW' FI' Sf H') as (f' & E & S' & A & B). exists f'. cbn [save_vars]. rewrite Eb.
      rewrite path_append_name by assumption. rewrite <- app_assoc. unfold write_file. rewrite C. split; [exact E|]. split; [exact S'|].
      assert (NT : ~ touched dir w (dir_prefix dir ++ n ++ ext_of v)).
      { intros (n1 & v1 & I1 & O1 & E1). apply app_inv_head in E1. apply ext_inj in E1 as [-> _]; auto.
        apply in_item in I1 as (t1 & I1 & _). eapply Forall_forall in FW; [|exact I1]. cbn [fst] in FW. rewrite lts_irrefl in FW. discriminate. }
      split.
      * intros p b (n0 & v0 & [I|I] & O0 & Ep & E0).
        -- injection I as <- _ <-. rewrite Ep, B by exact NT. rewrite find_set, eqs_refl. congruence.
        -- apply A. exists n0, v0. auto.
      * intros p T. rewrite B; [|intros (n0 & v0 & I & R); apply T; exists n0, v0; split; [right; exact I|exact R]].
        rewrite find_set. destruct (eqs_spec p (dir_prefix dir ++ n ++ ext_of v)) as [->|]; [|reflexivity].
        exfalso; apply T. exists n, v. split; [left; exact (f_equal (pair n) EI)|]. auto.
Qed.

(** ** loading *)
Definition bmp_entry (e : str * list Z) : bool := eqs (snd (stem_extension (fst e))) (lit ".bmp").

Lemma load_entries_spec alloc junk csv ppm (w : ws) entries : sorted_map w -> Forall (fun e : str * any value => sanitize (fst e) = fst e) w ->
  (forall e, In e entries -> (forall a, load_entry alloc junk csv ppm a e = None)
     \/ exists n v, In (n, item v) w /\ n <> [] /\ is_other v = false /\ fst e = n ++ ext_of v
        /\ forall a, 2 <= a -> load_entry alloc junk csv ppm a e = Some (Ok v, if is_rgb v then a - 1 else a)) ->
  forall avail w0, length (filter bmp_entry entries) + 2 <= avail ->
  exists w1 avail', load_entries alloc junk csv ppm entries avail w0 = (w1, avail', Ok tt)
    /\ avail' + length (filter bmp_entry entries) = avail
    /\ (forall n v b, In (n, item v) w -> n <> [] -> is_other v = false -> In (n ++ ext_of v, b) entries -> map_find n w1 = Some (item v))
    /\ (forall n, (forall v b, In (n, item v) w -> is_other v = false -> ~ In (n ++ ext_of v, b) entries) -> map_find n w1 = map_find n w0).
Proof.
  intros SW SN. induction entries as [|e entries IH]; intros H avail w0 A.
  - exists w0, avail. split; [reflexivity|]. split; [cbn; lia|]. split; [intros n v b _ _ _ []|reflexivity].
  - assert (H' : forall e0, In e0 entries -> (forall a, load_entry alloc junk csv ppm a e0 = None)
     \/ exists n v, In (n, item v) w /\ n <> [] /\ is_other v = false /\ fst e0 = n ++ ext_of v
        /\ forall a, 2 <= a -> load_entry alloc junk csv ppm a e0 = Some (Ok v, if is_rgb v then a - 1 else a))
      by (intros e0 I; apply H; right; exact I).
    cbn [load_entries filter] in *. destruct (H e (or_introl eq_refl)) as [Skip|(n & v & I & N & O & Ee & L)].
    + rewrite Skip.
      assert (NB : bmp_entry e = false).
      { unfold bmp_entry. specialize (Skip 0). unfold load_entry in Skip. destruct (eqs _ (lit ".bmp")); [discriminate|reflexivity]. }
      assert (NL : forall n v b, n <> [] -> is_other v = false -> e <> (n ++ ext_of v, b)).
      { intros n v b N O ->. specialize (Skip 0). unfold load_entry in Skip. cbn [fst] in Skip. rewrite stem_ext_of in Skip by auto. cbn [snd] in Skip.
        destruct v; try discriminate; cbn in Skip; discriminate. }
      rewrite NB in *. destruct (IH H' avail w0 A) as (w1 & a' & E & Ea & P & Q). exists w1, a'. split; [exact E|]. split; [exact Ea|]. split.
      * intros n v b I N O [J|J]; [exfalso; eapply NL; eauto|]. eapply P; eauto.
      * intros n T. apply Q. intros v b I O J. apply (T v b I O). right; exact J.
    + assert (BE : bmp_entry e = is_rgb v).
      { unfold bmp_entry. rewrite Ee, stem_ext_of by auto. destruct v; reflexivity. }
      assert (A2 : 2 <= avail) by lia. rewrite L by exact A2. rewrite Ee, stem_ext_of by auto. cbn [fst]. rewrite BE in *.
      set (avail1 := if is_rgb v then avail - 1 else avail).
      assert (A1 : length (filter bmp_entry entries) + 2 <= avail1) by (unfold avail1; destruct (is_rgb v); cbn [length] in A; lia).
      destruct (IH H' avail1 (ws_store value n (item v) w0) A1) as (w1 & a' & E & Ea & P & Q). exists w1, a'. split; [exact E|].
      split; [unfold avail1 in Ea; destruct (is_rgb v); cbn [length] in *; lia|].
      assert (Sn : sanitize n = n) by (eapply Forall_forall in SN; [|exact I]; exact SN).
      assert (U : forall v', In (n, item v') w -> v' = v).
      { intros v' I'. apply find_in in I; [|exact SW]. apply find_in in I'; [|exact SW]. rewrite I in I'. injection I' as _ ->; reflexivity. }
      split.
      * intros n0 v0 b I0 N0 O0 J.
        destruct (in_dec (list_eq_dec ascii_dec) (n0 ++ ext_of v0) (map fst entries)) as [K|K].
        -- apply in_map_iff in K as ([x b'] & Ex & K). cbn [fst] in Ex; subst x. eapply P; eauto.
        -- destruct J as [J|J]; [|exfalso; apply K; apply in_map_iff; exists (n0 ++ ext_of v0, b); auto].
           assert (E0 : n0 ++ ext_of v0 = n ++ ext_of v) by (rewrite <- Ee, J; reflexivity). apply ext_inj in E0 as [-> _]; auto.
           assert (v0 = v) by (apply U; exact I0). subst v0.
           rewrite Q.
           ++ unfold ws_store. rewrite Sn, find_set, eqs_refl. reflexivity.
           ++ intros v' b' I' O' J'. assert (v' = v) by (apply U; exact I'). subst v'. apply K. apply in_map_iff. exists (n ++ ext_of v, b'); auto.
      * intros n0 T. rewrite Q by (intros v' b' I' O' J'; apply (T v' b' I' O'); right; exact J').
        unfold ws_store. rewrite Sn, find_set. destruct (eqs_spec n0 n) as [->|]; [|reflexivity].
        exfalso. apply (T v (snd e) I O). left. rewrite <- Ee. destruct e; reflexivity.
Qed.

(** running out of files that may be opened *)
Lemma load_bmp_exhausted alloc junk csv ppm entries : forall avail w0, Forall (fun e => bmp_entry e = true) entries -> avail < length entries ->
  (forall e, In e entries -> bmp_read alloc junk (snd e) <> UB) ->
  exists x, snd (load_entries alloc junk csv ppm entries avail w0) = Throw x.
Proof.
  induction entries as [|e entries IH]; intros avail w0 F L U; [cbn in L; lia|].
  inversion F as [|? ? B F']; subst. cbn [load_entries]. unfold load_entry. unfold bmp_entry in B. rewrite B. unfold typed.
  assert (U' : forall e, In e entries -> bmp_read alloc junk (snd e) <> UB) by (intros e0 I; apply U; right; exact I).
  destruct avail as [|[|a]]; cbn [bmp_open fst snd].
  - cbn. eauto.
  - destruct raw_image_to_array_empty as (im & E & _). rewrite E. cbn [bind]. apply IH; [exact F'|cbn [length] in L; lia|exact U'].
  - destruct (bmp_read alloc junk (snd e)) as [im|x|] eqn:R; cbn [bind].
    + apply IH; [exact F'|cbn [length] in L; lia|exact U'].
    + cbn. eauto.
    + exfalso; exact (U e (or_introl eq_refl) R).
Qed.
