(** PropBundle.v - C65 (a saved workspace can be loaded) and C93 (reading an image file releases it).

    [storable v] and [ext_of v] (BundleProofs) are the specification of what can be saved: an image of two dimensions whose
    file the reader can read back (C37, C74), and the extension of its type.  [avail] is the number of files the process may still open. *)
From Coq Require Import Ascii String Sorting.Sorted Sorting.Permutation ZifyBool ZifyNat.
From Verif Require Import Base ImageModel ImageFacts BmpModel BmpProofs CliModel CliProofs PropBmp BundleModel BundleProofs.
Open Scope nat_scope.
Ltac Zify.zify_post_hook ::= Z.div_mod_to_equations.

(** ** C65 *)
(** a workspace as every history of calls leaves it (C59_listing): names in order and trimmed *)
Definition proper (w : ws) : Prop :=
  sorted_map w /\ Forall (fun e => sanitize (fst e) = fst e /\ snd e = item (snd (snd e))) w.
(** a name that can be the stem of a file name *)
Definition file_name (n : str) : Prop := n <> [] /\ ~ In "/"%char n.
Definition extensions : list str := [lit ".bmp"; lit ".dbmp"; lit ".hsv"; lit ".csv"; lit ".ppm"].
(** [fn] ends in an extension load_workspace knows, after a stem *)
Definition recognised (fn : str) : Prop := exists s e, s <> [] /\ In e extensions /\ fn = s ++ e.

Lemma load_entry_ext alloc junk csv ppm a e : ~ In (snd (stem_extension (fst e))) extensions -> load_entry alloc junk csv ppm a e = None.
Proof.
  intros H. unfold load_entry.
  repeat match goal with |- context [eqs ?x ?y] => destruct (eqs_spec x y) as [E|_]; [exfalso; apply H; rewrite E; cbn; tauto|] end.
  reflexivity.
Qed.
Lemma split_dot_inv r : forall ext s e, split_dot r ext = Some (s, e) -> rev r ++ ext = s ++ e.
Proof.
  induction r as [|c r IH]; intros ext s e E; cbn [split_dot] in E; [discriminate|].
  destruct (Ascii.eqb_spec c dot) as [->|].
  - injection E as <- <-. cbn [rev]. rewrite <- app_assoc. reflexivity.
  - apply IH in E. rewrite <- E. cbn [rev]. rewrite <- app_assoc. reflexivity.
Qed.
Lemma recognised_ext fn : In (snd (stem_extension fn)) extensions -> recognised fn.
Proof.
  unfold stem_extension. destruct (eqs_spec fn (lit "..")) as [->|_]; [cbn; intuition discriminate|].
  destruct (split_dot (rev fn) []) as [[s e]|] eqn:E; [|cbn; intuition discriminate].
  apply split_dot_inv in E. rewrite rev_involutive, app_nil_r in E. destruct s as [|c s]; [cbn; intuition discriminate|].
  cbn [snd]. intros I. exists (c :: s), e. split; [discriminate|]. auto.
Qed.

Lemma listing_nodup dir f : sorted_map f -> NoDup (map fst (listing dir f)).
Proof.
  intros S. assert (N : NoDup (map fst f)).
  { induction S as [|e m S IH F]; cbn [map]; constructor; [|exact IH]. intros I. apply in_map_iff in I as (x & Ex & Ix).
    eapply Forall_forall in F; [|exact Ix]. rewrite Ex, lts_irrefl in F. discriminate. }
  clear S. induction f as [|[p b] f IH]; [constructor|]. cbn [map fst] in N. inversion N as [|? ? NI N']; subst.
  change (listing dir ((p, b) :: f)) with (match drop_prefix (dir_prefix dir) p with
    | Some fn => match fn with [] => [] | _ => if has_slash fn then [] else [(fn, b)] end | None => [] end ++ listing dir f).
  destruct (drop_prefix (dir_prefix dir) p) as [fn|] eqn:D; [|apply IH; exact N'].
  destruct fn as [|c fn]; [apply IH; exact N'|]. destruct (has_slash (c :: fn)); [apply IH; exact N'|].
  cbn [app map fst]. constructor; [|apply IH; exact N'].
  intros I. apply in_map_iff in I as ([fn' b'] & E & I). cbn [fst] in E; subst fn'. apply in_listing in I as (I & _).
  apply NI. apply drop_prefix_spec in D. apply in_map_iff. exists (dir_prefix dir ++ c :: fn, b'). split; [symmetry; exact D|exact I].
Qed.

(** Saving a workspace into a directory and loading the directory, in whatever order its files are found, gives back every
    saveable variable, and leaves all others as they were.  Every image has two dimensions and fits its format, its name can
    be a file name, every file can be created, and the directory holds no image files but those that are overwritten.  The
    process may open two files more than there are images of RGB pixels. *)
Theorem C65_round_trip_partial :
  forall alloc junk junk' junk8 csv ppm can_create arg (w : ws) f avail,
  (forall n, alloc n = true) -> fresh junk -> fresh junk' -> fresh junk8 -> (forall n, Forall word64 (junk8 n)) ->
  let dir := sanitize arg in dir <> [] ->
  proper w -> sorted_map f ->
  (forall n v, In (n, item v) w -> is_other v = false ->
     file_name n /\ storable v /\ can_create (dir_prefix dir ++ n ++ ext_of v) = true) ->
  (forall fn b, In (fn, b) (listing dir f) -> recognised fn -> exists n v, In (n, item v) w /\ is_other v = false /\ fn = n ++ ext_of v) ->
  length (filter (fun e => is_rgb (snd (snd e))) w) + 2 <= avail ->
  exists f', save_workspace junk junk8 can_create arg w f = (f', Ok tt)
    /\ forall entries w0, Permutation entries (listing dir f') ->
       exists w1 avail', load_entries alloc junk' csv ppm entries avail w0 = (w1, avail', Ok tt)
         /\ forall n, map_find n w1 = match map_find n w with
                                      | Some (t, v) => if is_other v then map_find n w0 else Some (t, v)
                                      | None => map_find n w0
                                      end.
Proof.
  intros alloc junk junk' junk8 csv ppm can_create arg w f avail HA HJ HJ' HJ8 H8 dir ND [SW FW] SF HV HD AV.
  assert (FI : Forall (fun e : str * any value => snd e = item (snd (snd e))) w) by (eapply Forall_impl; [|exact FW]; intros e [_ ?]; assumption).
  assert (FN : Forall (fun e : str * any value => sanitize (fst e) = fst e) w) by (eapply Forall_impl; [|exact FW]; intros e [? _]; assumption).
  assert (TG : forall n t v, In (n, (t, v)) w -> (t, v) = item v).
  { intros n t v I. eapply Forall_forall in FI; [|exact I]. exact FI. }
  assert (EN : forall v, storable v -> exists bytes, encode junk junk8 v = Some (Ok bytes, ext_of v)
    /\ forall n a, n <> [] -> 2 <= a -> load_entry alloc junk' csv ppm a (n ++ ext_of v, bytes) = Some (Ok v, if is_rgb v then a - 1 else a)).
  { intros v Sv. destruct (encode_load alloc junk junk8 csv ppm v Sv HA HJ HJ8 H8) as (b1 & E1 & L1).
    destruct (encode_load alloc junk' junk8 csv ppm v Sv HA HJ' HJ8 H8) as (b2 & E2 & L2).
    exists b1. split; [exact E1|]. intros n a N A. specialize (L1 n a N A).
    specialize (L2 n a N A).
    destruct v as [im|im|im|k];
      [|assert (Eb : b2 = b1) by (cbn [encode] in E1, E2; congruence); rewrite <- Eb; exact L2
       |assert (Eb : b2 = b1) by (cbn [encode] in E1, E2; congruence); rewrite <- Eb; exact L2|contradiction].
    cbn [encode] in E1. cbn [storable] in Sv. destruct Sv as (ww & hh & R & B1 & B2 & B3).
    destruct (C37_round_trip_partial alloc junk junk' im ww hh R HJ HJ' HA B1 B2 B3) as (file & Ew & Er).
    rewrite Ew in E1. injection E1 as <-. unfold load_entry. cbn [fst snd]. rewrite (stem_ext_of n (Rgb im)) by auto. cbn [fst snd].
    change (eqs (ext_of (Rgb im)) (lit ".bmp")) with true. cbn iota.
    destruct a as [|[|a]]; try lia. unfold typed, bmp_open. cbn [fst snd]. rewrite Er. reflexivity. }
  assert (HS : forall n v, In (n, item v) w -> is_other v = false ->
     n <> [] /\ ~ In slash n /\ (exists b, encode junk junk8 v = Some (Ok b, ext_of v)) /\ can_create (dir_prefix dir ++ n ++ ext_of v) = true).
  { intros n v I O. destruct (HV n v I O) as ([N NS] & Sv & C). destruct (EN v Sv) as (b & E & _). split; [exact N|]. split; [exact NS|]. split; [exists b; exact E|exact C]. }
  destruct (save_vars_spec junk junk8 can_create dir w f SW FI SF HS) as (f' & E & SF' & A & B).
  exists f'. split; [unfold save_workspace; fold dir; destruct dir; [contradiction|exact E]|].
  intros entries w0 PE.
  (* what the directory holds *)
  assert (LI : forall fn b, In (fn, b) (listing dir f') -> recognised fn ->
     exists n v, In (n, item v) w /\ is_other v = false /\ fn = n ++ ext_of v /\ encode junk junk8 v = Some (Ok b, ext_of v)).
  { intros fn b I R. apply in_listing in I as (I & N & NS). apply find_in in I; [|exact SF'].
    assert (D : touched dir w (dir_prefix dir ++ fn) \/ ~ touched dir w (dir_prefix dir ++ fn)).
    { destruct (in_dec (list_eq_dec ascii_dec) fn (flat_map (fun e => if is_other (snd (snd e)) then [] else [fst e ++ ext_of (snd (snd e))]) w)) as [K|K].
      - left. apply in_flat_map in K as ([n [t v]] & I' & K). cbn [fst snd] in K. destruct (is_other v) eqn:O; [destruct K|]. destruct K as [K|[]].
        exists n, v. split; [rewrite <- (TG n t v I'); exact I'|]. split; [exact O|]. rewrite <- K. reflexivity.
      - right. intros (n & v & I' & O & E'). apply app_inv_head in E'. apply K. apply in_flat_map. exists (n, item v). split; [exact I'|].
        cbn [fst snd item]. rewrite O. left. symmetry; exact E'. }
    destruct D as [(n & v & I' & O & E')|D].
    - apply app_inv_head in E'. destruct (HS n v I' O) as (_ & _ & (b' & Eb) & _). exists n, v. split; [exact I'|]. split; [exact O|]. split; [exact E'|].
      assert (Wr : map_find (dir_prefix dir ++ fn) f' = Some b') by (apply A; exists n, v; subst fn; auto). congruence.
    - rewrite B in I by exact D. apply find_in in I; [|exact SF].
      destruct (HD fn b) as (n & v & I' & O & E'); [apply in_listing; auto|exact R|].
      exfalso; apply D. exists n, v. subst fn; auto. }
  assert (LD : forall n v, In (n, item v) w -> is_other v = false -> exists b, In (n ++ ext_of v, b) (listing dir f')).
  { intros n v I O. destruct (HS n v I O) as (N & NS & (b & Eb) & _). exists b. apply in_listing. split.
    - apply find_in; [exact SF'|]. apply A. exists n, v. auto.
    - split; [destruct n; [contradiction|discriminate]|]. intros J. apply in_app_or in J as [J|J]; [exact (NS J)|exact (ext_of_slash v J)]. }
  assert (HE : forall e, In e entries -> (forall a, load_entry alloc junk' csv ppm a e = None)
     \/ exists n v, In (n, item v) w /\ n <> [] /\ is_other v = false /\ fst e = n ++ ext_of v
        /\ forall a, 2 <= a -> load_entry alloc junk' csv ppm a e = Some (Ok v, if is_rgb v then a - 1 else a)).
  { intros [fn b] I. apply (Permutation_in _ PE) in I.
    destruct (in_dec (list_eq_dec ascii_dec) (snd (stem_extension fn)) extensions) as [K|K].
    - right. apply recognised_ext in K. destruct (LI fn b I K) as (n & v & I' & O & E' & Eb). destruct (HV n v I' O) as ([N NS] & Sv & _).
      exists n, v. split; [exact I'|]. split; [exact N|]. split; [exact O|]. split; [exact E'|]. intros a Ha.
      destruct (EN v Sv) as (b' & Eb' & L). rewrite Eb in Eb'. injection Eb' as <-. subst fn. apply L; assumption.
    - left. intros a. apply load_entry_ext. exact K. }
  assert (CB : length (filter bmp_entry entries) + 2 <= avail).
  { apply Nat.le_trans with (2 := AV). apply Nat.add_le_mono_r.
    assert (LE : length (map fst (filter bmp_entry entries))
      <= length (map (fun e : str * any value => fst e ++ lit ".bmp") (filter (fun e : str * any value => is_rgb (snd (snd e))) w)));
      [|rewrite !map_length in LE; exact LE].
    apply NoDup_incl_length.
    - assert (NE : NoDup (map fst entries)) by (eapply Permutation_NoDup; [apply Permutation_map; symmetry; exact PE|apply listing_nodup; exact SF']).
      clear -NE. induction entries as [|e l IH]; [constructor|]. cbn [map filter] in *. inversion NE; subst.
      destruct (bmp_entry e); [|auto]. cbn [map]. constructor; [|auto]. intros I. apply H1. apply in_map_iff in I as (x & Ex & I). apply filter_In in I as [I _].
      apply in_map_iff. exists x; auto.
    - intros fn I. apply in_map_iff in I as ([fn' b] & Ef & I). cbn [fst] in Ef; subst fn'. apply filter_In in I as [I Bm].
      apply (Permutation_in _ PE) in I. unfold bmp_entry in Bm. cbn [fst] in Bm. apply eqs_eq in Bm.
      destruct (LI fn b I) as (n & v & I' & O & E' & _); [apply recognised_ext; rewrite Bm; cbn; tauto|].
      destruct (HV n v I' O) as ([N _] & _ & _). subst fn. rewrite stem_ext_of in Bm by auto. cbn [snd] in Bm.
      apply in_map_iff. exists (n, item v). cbn [fst]. split; [rewrite <- Bm; reflexivity|]. apply filter_In. split; [exact I'|].
      destruct v; try discriminate; reflexivity. }
  destruct (load_entries_spec alloc junk' csv ppm w entries SW FN HE avail w0 CB) as (w1 & a' & El & _ & P & Q).
  exists w1, a'. split; [exact El|]. intros n.
  destruct (map_find n w) as [[t v]|] eqn:M.
  - apply find_in in M; [|exact SW]. pose proof (TG n t v M) as Et. destruct (is_other v) eqn:O.
    + apply Q. intros v' b I' O' _. apply find_in in M; [|exact SW]. apply find_in in I'; [|exact SW]. rewrite M in I'. injection I' as _ ->. congruence.
    + rewrite Et in *. destruct (HV n v M O) as ([N _] & _ & _). destruct (LD n v M O) as (b & I).
      eapply P; eauto. apply (Permutation_in _ (Permutation_sym PE)); exact I.
  - apply Q. intros v b I' _ _. apply find_in in I'; [|exact SW]. congruence.
Qed.
Print Assumptions C65_round_trip_partial.

Definition dot1 : image (list Z) := mkImage [1; 1] [[1; 2; 3]]%Z.
Definition plane1 : image Z := mkImage [2; 1] [5; 4607182418800017408]%Z.
Definition some_ws : ws := [(lit "a.b", item (Rgb dot1)); (lit "h", item (Hsv (mkImage [1; 1] [[7; 8; 9]]%Z))); (lit "n", item (Other 5)); (lit "x", item (Dbl plane1))].
Definition zeros8 (n : nat) : list Z := repeat 0%Z n.
Definition none_open (avail : nat) (b : list Z) : res value * nat := (Throw RuntimeError, avail).

Example C65_case :
  proper some_ws
  /\ (forall n v, In (n, item v) some_ws -> is_other v = false -> file_name n /\ storable v)
  /\ let f' := fst (save_workspace zeros8 zeros8 (fun _ => true) (lit "'out'") some_ws []) in
     map fst f' = [lit "out/a.b.bmp"; lit "out/h.hsv"; lit "out/x.dbmp"]
     /\ load_entries (fun _ => true) zeros8 none_open none_open (rev (listing (lit "out") f')) 3 [] =
          ([(lit "a.b", item (Rgb dot1)); (lit "h", item (Hsv (mkImage [1; 1] [[7; 8; 9]]%Z))); (lit "x", item (Dbl plane1))], 2, Ok tt).
Proof.
  split; [split; repeat constructor|]. split; [|split; vm_compute; reflexivity].
  intros n v I O. unfold some_ws in I. cbn [In] in I.
  destruct I as [I|[I|[I|[I|[]]]]]; injection I as <- _ <-; try discriminate;
    (split; [split; [discriminate|cbn; intuition discriminate]|]); cbn [storable].
  - exists 1, 1. split; [split; [reflexivity|split; [reflexivity|repeat constructor; lia]]|]. cbn. lia.
  - exists 1, 1. split; [reflexivity|]. split; [reflexivity|]. split; [repeat constructor; unfold word64; lia|]. lia.
  - exists 2, 1. split; [reflexivity|]. split; [reflexivity|]. split; [repeat constructor; unfold word64; lia|]. lia.
Qed.

Lemma stem_no_slash fn : ~ In slash fn -> ~ In slash (sanitize (fst (stem_extension fn))).
Proof.
  intros N I. apply N. destruct (sanitize_spec (fst (stem_extension fn))) as (pre & post & E & _).
  assert (J : In slash (fst (stem_extension fn))) by (rewrite E; apply in_or_app; right; apply in_or_app; left; exact I).
  revert J. clear -N. unfold stem_extension. destruct (eqs fn (lit "..")); [auto|].
  destruct (split_dot (rev fn) []) as [[s e]|] eqn:E; [|auto].
  apply split_dot_inv in E. rewrite rev_involutive, app_nil_r in E. destruct s as [|c s]; [auto|]. cbn [fst]. intros J. rewrite E. apply in_or_app; left; exact J.
Qed.
(** What is missing, and false.  A variable whose name has a slash is saved without complaint, but loading a directory never
    gives such a variable: *)
Theorem C65_slash_refuted :
  (forall alloc junk csv ppm dir f entries avail w0 n, Permutation entries (listing dir f) -> In "/"%char n ->
     map_find n (fst (fst (load_entries alloc junk csv ppm entries avail w0))) = map_find n w0)
  /\ exists n f', In "/"%char n /\ save_workspace zeros8 zeros8 (fun _ => true) (lit "out") [(n, item (Rgb dot1))] [] = (f', Ok tt).
Proof.
  split.
  - intros alloc junk csv ppm dir f entries avail w0 n P I.
    assert (H : forall fn b, In (fn, b) entries -> ~ In slash fn) by (intros fn b J; apply (Permutation_in _ P) in J; apply in_listing in J; tauto).
    clear P. revert avail w0. induction entries as [|e entries IH]; intros avail w0; [reflexivity|]. cbn [load_entries].
    assert (IH' := IH (fun fn b J => H fn b (or_intror J))).
    destruct (load_entry alloc junk csv ppm avail e) as [[[v|x|] a]|]; try reflexivity; [|apply IH'].
    rewrite IH'. unfold ws_store. rewrite find_set. destruct (eqs_spec n (sanitize (fst (stem_extension (fst e))))) as [->|]; [|reflexivity].
    exfalso. refine (stem_no_slash (fst e) _ I). destruct e as [fn b]. apply (H fn b). left; reflexivity.
  - exists (lit "a/b"). eexists. split; [cbn; tauto|]. vm_compute. reflexivity.
Qed.
Print Assumptions C65_slash_refuted.
(** and a variable with the empty name goes to a file that has no extension *)
Theorem C65_empty_name_refuted : forall alloc junk csv ppm can_create avail f' r, fresh junk ->
  save_workspace junk junk can_create (lit "out") [([], item (Rgb dot1))] [] = (f', r) ->
  r = Ok tt /\ load_entries alloc junk csv ppm (listing (lit "out") f') avail [] = ([], avail, Ok tt).
Proof.
  intros alloc junk csv ppm can_create avail f' r HJ E.
  assert (R : rgb_image dot1 1 1) by (split; [reflexivity|split; [reflexivity|repeat constructor; lia]]).
  destruct (C37_round_trip_partial (fun _ => true) junk junk dot1 1 1 R HJ HJ) as (b & Eb & _); try (cbn; lia).
  unfold save_workspace in E. change (sanitize (lit "out")) with (lit "out") in E.
  cbn [lit list_ascii_of_string] in E. cbn [save_vars item encode] in E. rewrite Eb in E. cbn [save_vars] in E. unfold write_file in E.
  destruct (can_create _); injection E as <- <-; split; reflexivity.
Qed.
Print Assumptions C65_empty_name_refuted.

(** an earlier file of another type hides the variable, in one of the orders the files may be found in *)
Theorem C65_stale_file_refuted : exists w_old w_new f f' entries w1 avail,
  save_workspace zeros8 zeros8 (fun _ => true) (lit "out") w_old [] = (f, Ok tt)
  /\ save_workspace zeros8 zeros8 (fun _ => true) (lit "out") w_new f = (f', Ok tt)
  /\ Permutation entries (listing (lit "out") f')
  /\ load_entries (fun _ => true) zeros8 none_open none_open entries 9 [] = (w1, avail, Ok tt)
  /\ map_find (lit "x") w_new = Some (item (Rgb dot1)) /\ map_find (lit "x") w1 = Some (item (Dbl plane1)).
Proof.
  exists [(lit "x", item (Dbl plane1))], [(lit "x", item (Rgb dot1))]. do 5 eexists.
  split; [vm_compute; reflexivity|]. split; [vm_compute; reflexivity|]. split; [apply Permutation_refl|].
  split; [vm_compute; reflexivity|]. split; reflexivity.
Qed.
Print Assumptions C65_stale_file_refuted.

(** an image of three dimensions ends the saving, and the variables after it are not saved *)
Theorem C65_volume_refuted : exists w im f' x, In (lit "a", item (Dbl im)) w /\ length (dims im) = 3 /\ In (lit "b", item (Rgb dot1)) w
  /\ save_workspace zeros8 zeros8 (fun _ => true) (lit "out") w [] = (f', Throw x) /\ f' = [].
Proof.
  exists [(lit "a", item (Dbl (mkImage [1; 1; 2] [5; 6]%Z))); (lit "b", item (Rgb dot1))]. do 3 eexists.
  split; [left; reflexivity|]. split; [reflexivity|]. split; [right; left; reflexivity|]. split; vm_compute; reflexivity.
Qed.
Print Assumptions C65_volume_refuted.

(** ** C93 *)
(** reading [k] times, one after the other *)
Fixpoint again {A} (read : nat -> res A * nat) (k avail : nat) : list (res A) * nat :=
  match k with
  | O => ([], avail)
  | S k => let '(r, a) := read avail in let '(rs, a') := again read k a in (r :: rs, a')
  end.

(** .dbmp and .hsv files whose extents are not -1 can be read any number of times *)
Theorem C93_released_partial : forall file k avail,
  26 <= length file -> (s32 (word file 18) <> -1)%Z -> (s32 (word file 22) <> -1)%Z -> 2 <= avail ->
  again (fun a => double_open a file) k avail = (repeat (fst (double_open avail file)) k, avail)
  /\ again (fun a => hsv_open a file) k avail = (repeat (fst (hsv_open avail file)) k, avail).
Proof.
  intros file k avail L X Y A.
  assert (EF : extent_failed file = false) by (unfold extent_failed; rewrite !le32_word by lia; lia).
  destruct avail as [|[|a]]; try lia.
  split; induction k as [|k IH]; try reflexivity; cbn [again]; unfold double_open, hsv_open, two_opens in *; rewrite EF in *;
    rewrite IH; reflexivity.
Qed.
Print Assumptions C93_released_partial.

(** a BMP file can be read as often as files may be opened, less one; the read after those gives an empty image, and the next throws *)
Theorem C93_bmp_refuted : forall alloc junk file avail im,
  bmp_read alloc junk file = Ok im ->
  exists empty, dims empty = [0; 0] /\
    again (fun a => bmp_open alloc junk a file) (avail + 2) (S avail) = (repeat (Ok im) avail ++ [Ok empty; Throw RuntimeError], 0).
Proof.
  intros alloc junk file avail im E. destruct raw_image_to_array_empty as (e & Ee & De & _). exists e. split; [exact De|].
  induction avail as [|a IH].
  - cbn [Nat.add again bmp_open repeat app]. rewrite Ee. reflexivity.
  - cbn [Nat.add again repeat app]. unfold bmp_open at 1. rewrite E, IH. reflexivity.
Qed.
Print Assumptions C93_bmp_refuted.
(** an unreadable .dbmp file leaves one more file open each time *)
Theorem C93_failure_refuted : exists file, forall k, snd (again (fun a => double_open a file) k (k + 2)) = 2.
Proof.
  exists (repeat 255%Z 54). intros k. induction k as [|k IH]; [reflexivity|].
  assert (D : fst (double_open (S k + 2) (repeat 255%Z 54)) = dread 0%Z (repeat 255%Z 54) (cells_of (repeat 255%Z 54)) /\
              snd (double_open (S k + 2) (repeat 255%Z 54)) = k + 2).
  { unfold double_open, two_opens. change (extent_failed (repeat 255%Z 54)) with true. cbn iota. replace (S k + 2) with (S (S (S k))) by lia.
    cbn [fst snd]. split; [reflexivity|lia]. }
  cbn [again]. destruct (double_open (S k + 2) (repeat 255%Z 54)) as [r a]. destruct D as [_ D]. cbn [snd] in D. subst a.
  destruct (again (fun a => double_open a (repeat 255%Z 54)) k (k + 2)) as [rs a]. exact IH.
Qed.
Print Assumptions C93_failure_refuted.
(** loading a directory with more BMP files than files may be opened is never completed *)
Theorem C93_load_refuted : forall alloc junk csv ppm entries avail w0,
  (forall fn b, In (fn, b) entries -> exists s, s <> [] /\ fn = s ++ lit ".bmp") ->
  (forall fn b, In (fn, b) entries -> bmp_read alloc junk b <> UB) -> avail < length entries ->
  exists x, snd (load_entries alloc junk csv ppm entries avail w0) = Throw x.
Proof.
  intros alloc junk csv ppm entries avail w0 H U L. apply load_bmp_exhausted; [|exact L|].
  - apply Forall_forall. intros [fn b] I. destruct (H fn b I) as (s & N & ->). unfold bmp_entry. cbn [fst].
    pose proof (stem_ext_of s (Rgb dot1) N eq_refl) as X. cbn [ext_of] in X. rewrite X. reflexivity.
  - intros [fn b] I. apply (U fn b I).
Qed.
Print Assumptions C93_load_refuted.
Example C93_case : exists file, bmp_write zeros8 dot1 = Ok file
  /\ again (fun a => bmp_open (fun _ => true) zeros8 a file) 4 3 = ([Ok dot1; Ok dot1; Ok (mkImage [0; 0] []); Throw RuntimeError], 0).
Proof. exists (match bmp_write zeros8 dot1 with Ok f => f | _ => [] end). split; vm_compute; reflexivity. Qed.
