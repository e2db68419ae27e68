(** PropText.v - property theorems C40, C41, C75 (text image files).

    [layout ts s] (TextProofs) is the specification of a PNM token stream: the text [s] consists of the tokens
    [ts] in order, separated and surrounded by white space and by comments that start at a token boundary and run
    to the end of the line.  [s] : order in which the iterations of a parallel loop take effect. *)
From Coq Require Import ZifyBool ZifyNat Ascii String QArith.
From Verif Require Import Base ImageModel ImageFacts PixelModel PixelProofs TextModel TextProofs PropBmp.
Open Scope nat_scope.
Open Scope list_scope.
Ltac Zify.zify_post_hook ::= Z.div_mod_to_equations.

(** ** C40 *)
(** Reading: whatever the white space and comments, the image has the extents of the header, the first sample is in
    the top row, and every sample is shifted from the file's precision to [outbits] bits. *)
Theorem C40_reader :
  forall s cap outbits magic tw th tm ts rest w h m vs file,
  sched1_ok s -> magic = P2 \/ magic = P3 -> layout (magic :: tw :: th :: tm :: ts ++ rest) file ->
  stoull tw = Ok w -> stoull th = Ok h -> stoi tm = Ok m -> Forall2 (fun t v => stoi t = Ok v) ts vs ->
  length vs = (if text_eqb magic P3 then 3 * (w * h) else w * h) ->
  (0 <= m < 2 ^ 31 - 1)%Z -> (Z.abs (outbits - Z.log2 (m + 1)) < 32)%Z -> fits (3 * (w * h)) -> length vs <= cap ->
  exists im, pnm_read s cap outbits file = Ok im /\
    Repr im w h (fun x y =>
      let sample k := (Z.shiftl (nth k vs 0) (outbits - Z.log2 (m + 1)) mod 256)%Z in
      let k := (h - 1 - y) * w + x in
      if text_eqb magic P3 then [sample (3 * k); sample (3 * k + 1); sample (3 * k + 2)]
      else [sample k; sample k; sample k]).
Proof.
  intros s cap outbits magic tw th tm ts rest w h m vs file Hs HM L Ew Eh Em HV LV Bm Bs F HC.
  destruct (pnm_read_spec s cap outbits magic tw th tm ts rest w h m vs file) as (im & E & R); auto.
  { unfold sample_count; rewrite <- LV; auto. }
  exists im; split; auto; eapply Repr_ext; [exact R|]; intros x y _ _; cbv beta zeta; unfold pnm_px.
  destruct (text_eqb magic P3); cbn [map repeat]; rewrite ?Nat.add_0_r; reflexivity.
Qed.
Print Assumptions C40_reader.

Definition comment_file : text :=
  chars "P2 # two by one" ++ [newline] ++ chars "2 1" ++ [newline] ++ chars "#max" ++ [newline; 9] ++ chars "255 #a b" ++ [newline]
  ++ chars "7   8 # end".

Example C40_reader_case :
  layout [P2; chars "2"; chars "1"; chars "255"; chars "7"; chars "8"] comment_file /\
  pnm_read seq0 100 8 comment_file = Ok (mkImage [2; 1] [[7; 7; 7]; [8; 8; 8]]%Z).
Proof.
  split; [|vm_compute; reflexivity].
  assert (S : forall t, (forall c, In c t -> 48 <= c) -> t <> [] -> is_token t).
  { intros t H N; split; auto; split; [intros c Hc; apply H in Hc; unfold is_space; lia|].
    destruct t as [|c t]; [tauto|]; cbn [hd]; specialize (H c); cbn in H; unfold hash; intros ->; assert (48 <= 35) by (apply H; auto); lia. }
  assert (D : forall t, Forall (fun c => 48 <= c) t -> t <> [] -> is_token t).
  { intros t H; apply S; rewrite Forall_forall in H; auto. }
  unfold comment_file.
  apply (layout_token [] P2 _ (chars " # two by one" ++ [newline] ++ chars "2 1" ++ [newline] ++ chars "#max" ++ [newline; 9] ++ chars "255 #a b" ++ [newline] ++ chars "7   8 # end")).
  { constructor. } { apply D; [|discriminate]; repeat constructor; cbn; lia. } { reflexivity. }
  apply (layout_token (chars " # two by one" ++ [newline]) (chars "2") _ (chars " 1" ++ [newline] ++ chars "#max" ++ [newline; 9] ++ chars "255 #a b" ++ [newline] ++ chars "7   8 # end")).
  { constructor; [reflexivity|]; apply (gap_comment (chars " two by one") []); [|constructor].
    cbn; intros H; repeat (destruct H as [H|H]; [discriminate H|]); exact H. }
  { apply D; [|discriminate]; repeat constructor; cbn; lia. } { reflexivity. }
  apply (layout_token (chars " ") (chars "1") _ ([newline] ++ chars "#max" ++ [newline; 9] ++ chars "255 #a b" ++ [newline] ++ chars "7   8 # end")).
  { repeat constructor. } { apply D; [|discriminate]; repeat constructor; cbn; lia. } { reflexivity. }
  apply (layout_token ([newline] ++ chars "#max" ++ [newline; 9]) (chars "255") _ (chars " #a b" ++ [newline] ++ chars "7   8 # end")).
  { constructor; [reflexivity|]; apply (gap_comment (chars "max") [9]); [|repeat constructor].
    cbn; intros H; repeat (destruct H as [H|H]; [discriminate H|]); exact H. }
  { apply D; [|discriminate]; repeat constructor; cbn; lia. } { reflexivity. }
  apply (layout_token (chars " #a b" ++ [newline]) (chars "7") _ (chars "   8 # end")).
  { constructor; [reflexivity|]; apply (gap_comment (chars "a b") []); [|constructor].
    cbn; intros H; repeat (destruct H as [H|H]; [discriminate H|]); exact H. }
  { apply D; [|discriminate]; repeat constructor; cbn; lia. } { reflexivity. }
  apply (layout_token (chars "   ") (chars "8") _ (chars " # end")).
  { repeat constructor. } { apply D; [|discriminate]; repeat constructor; cbn; lia. } { reflexivity. }
  apply (layout_open (chars " ") (chars " end")).
  { repeat constructor. }
  cbn; intros H; repeat (destruct H as [H|H]; [discriminate H|]); exact H.
Qed.

(** fewer samples than the header announces: an exception *)
Theorem C40_truncated_samples :
  forall s cap outbits magic tw th tm ts w h m vs file,
  magic = P2 \/ magic = P3 -> layout (magic :: tw :: th :: tm :: ts) file ->
  stoull tw = Ok w -> stoull th = Ok h -> stoi tm = Ok m -> Forall2 (fun t v => stoi t = Ok v) ts vs ->
  length vs < (if text_eqb magic P3 then 3 * (w * h) else w * h) ->
  (0 <= m < 2 ^ 31 - 1)%Z -> fits (3 * (w * h)) -> 3 * (w * h) <= cap ->
  pnm_read s cap outbits file = Throw RuntimeError.
Proof.
  intros s cap outbits magic tw th tm ts w h m vs file HM L Ew Eh Em HV LV Bm F HC.
  eapply pnm_read_truncated; eauto; unfold sample_count; destruct (text_eqb magic P3); lia.
Qed.
Print Assumptions C40_truncated_samples.

(** a header that ends early: an exception *)
Theorem C40_truncated_header :
  forall s cap outbits magic file,
  magic = P2 \/ magic = P3 ->
  (layout [magic] file -> pnm_read s cap outbits file = Throw InvalidArgument) /\
  (forall tw w, stoull tw = Ok w -> layout [magic; tw] file -> pnm_read s cap outbits file = Throw InvalidArgument) /\
  (forall tw th w h, stoull tw = Ok w -> stoull th = Ok h -> layout [magic; tw; th] file ->
     pnm_read s cap outbits file = Throw InvalidArgument) /\
  (layout [] file -> pnm_read s cap outbits file = Throw RuntimeError).
Proof.
  intros s cap outbits magic file HM.
  assert (EM : negb (text_eqb magic P1 || text_eqb magic P2 || text_eqb magic P3) = false) by (destruct HM as [->| ->]; reflexivity).
  assert (E1 : text_eqb magic P1 = false) by (destruct HM as [->| ->]; reflexivity).
  unfold pnm_read; repeat split.
  - intros L; apply read_layout_cons in L as (r0 & -> & L); rewrite EM.
    apply read_layout_nil in L as ->; reflexivity.
  - intros tw w Ew L; apply read_layout_cons in L as (r0 & -> & L); rewrite EM.
    apply read_layout_cons in L as (r1 & -> & L); rewrite Ew; cbn [bind].
    apply read_layout_nil in L as ->; reflexivity.
  - intros tw th w h Ew Eh L; apply read_layout_cons in L as (r0 & -> & L); rewrite EM, E1.
    apply read_layout_cons in L as (r1 & -> & L); rewrite Ew; cbn [bind].
    apply read_layout_cons in L as (r2 & -> & L); rewrite Eh; cbn [bind].
    apply read_layout_nil in L as ->; reflexivity.
  - intros L; apply read_layout_nil in L as ->; reflexivity.
Qed.
Print Assumptions C40_truncated_header.

Example C40_truncated_case :
  pnm_read seq0 100 8 (chars "P2 2 1 255 7") = Throw RuntimeError /\
  pnm_read seq0 100 8 (chars "P3 2 # x") = Throw InvalidArgument.
Proof. split; vm_compute; reflexivity. Qed.

(** Writing, then reading.  [m]: the maximum written into the header; 255 by default, any value of eight bits precision *)
Lemma pnm_round_trip s cap im w h magic m :
  rgb_image im w h -> sched1_ok s -> magic = P2 \/ magic = P3 -> (255 <= m < 511)%Z -> fits (3 * (w * h)) -> fits w -> fits h -> 3 * (w * h) <= cap ->
  exists file im', pnm_write im magic m = Ok file /\ pnm_read s cap 8 file = Ok im' /\
    Repr im' w h (fun x y => if text_eqb magic P3 then px_at im w x y else repeat (nth 0 (px_at im w x y) 0%Z) 3).
Proof.
  intros RI Hs HM Bm F Fw Fh HC; apply rgb_Repr in RI as [R H3].
  destruct (pnm_write_layout im w h (px_at im w) magic m R Fh HM) as (file & E & L).
  { intros x y Hx Hy; apply H3; auto. }
  set (pt := fun i => px_at im w (i mod w) (h - 1 - i / w)) in *.
  set (vs := concat (map (fun i => pnm_samples magic (pt i)) (seq 0 (h * w)))) in *.
  assert (HB : forall i, i < h * w -> i mod w < w /\ h - 1 - i / w < h).
  { intros i Hi; assert (W0 : w <> 0) by (intros W0; rewrite W0, Nat.mul_0_r in Hi; inversion Hi).
    pose proof (Nat.mod_upper_bound i w W0) as Hm.
    assert (Hq : i / w < h) by (apply Nat.div_lt_upper_bound; auto; rewrite Nat.mul_comm; auto).
    set (q := i / w) in *; set (r := i mod w) in *; clearbody q r; lia. }
  set (k := if text_eqb magic P3 then 3 else 1).
  assert (FK : Forall (fun l => length l = k) (map (fun i => pnm_samples magic (pt i)) (seq 0 (h * w)))).
  { apply Forall_forall; intros l Hl; apply in_map_iff in Hl as (i & <- & Hi); apply in_seq0 in Hi.
    destruct (HB i Hi) as [Hx Hy]; destruct (H3 _ _ Hx Hy) as [L3 _]; fold (pt i) in L3; unfold pnm_samples, k.
    destruct (text_eqb magic P3); auto; rewrite firstn_length, L3; reflexivity. }
  assert (LV : length vs = sample_count magic w h).
  { unfold vs; rewrite (concat_const_length k) by auto; rewrite map_length, seq_length; unfold sample_count, k.
    destruct (text_eqb magic P3); lia. }
  assert (NV : forall i c, i < h * w -> c < k -> nth (k * i + c) vs 0%Z = nth c (pt i) 0%Z).
  { intros i c Hi Hc; unfold vs; rewrite nth_concat_const by auto.
    rewrite (nth_indep _ [] (pnm_samples magic (pt 0))) by (rewrite map_length, seq_length; auto).
    rewrite (map_nth (fun i => pnm_samples magic (pt i))), seq_nth by auto; cbn [Nat.add].
    unfold pnm_samples, k in *; destruct (text_eqb magic P3); auto.
    destruct c; [|lia]; destruct (pt i); reflexivity. }
  assert (L2 : Z.log2 (m + 1) = 8%Z) by (apply Z.log2_unique; cbn; lia).
  destruct (pnm_read_spec s cap 8 magic (dec w) (dec h) (dec_z m) (map dec_z vs) [] w h m vs file) as (im' & E' & R'); auto.
  - rewrite app_nil_r; exact L.
  - apply stoull_dec; auto.
  - apply stoull_dec; auto.
  - apply stoi_dec_z; unfold is_int; lia.
  - assert (FB : forall v, In v vs -> (0 <= v < 256)%Z).
    { intros v Hv; unfold vs in Hv; apply in_concat in Hv as (l & Hl & Hv); apply in_map_iff in Hl as (i & <- & Hi); apply in_seq0 in Hi.
      destruct (HB i Hi) as [Hx Hy]; destruct (H3 _ _ Hx Hy) as [_ FF]; fold (pt i) in FF; rewrite Forall_forall in FF; apply FF.
      unfold pnm_samples in Hv; destruct (text_eqb magic P3); auto; destruct (pt i); simpl in Hv; [tauto|]; simpl; tauto. }
    clear -FB; induction vs as [|v vs IH]; constructor.
    + assert (0 <= v < 256)%Z by (apply FB; simpl; auto); apply stoi_dec_z; unfold is_int; lia.
    + apply IH; intros; apply FB; simpl; auto.
  - lia.
  - rewrite L2; lia.
  - unfold sample_count; destruct (text_eqb magic P3); lia.
  - exists file, im'; split; auto; split; auto; eapply Repr_ext; [exact R'|].
    intros x y Hx Hy; cbv beta; rewrite L2; unfold pnm_px.
    set (i := (h - 1 - y) * w + x) in *.
    assert (Hi : i < h * w) by (unfold i; nia).
    assert (Ep : pt i = px_at im w x y).
    { unfold pt, i; rewrite (Nat.add_comm _ x), Nat.mod_add, Nat.div_add, Nat.mod_small, Nat.div_small by lia.
      f_equal; lia. }
    destruct (H3 x y Hx Hy) as [L3 FB].
    apply length3 in L3 as (r & g & b & Epx); rewrite Epx in *.
    assert (Br : (0 <= r < 256)%Z /\ (0 <= g < 256)%Z /\ (0 <= b < 256)%Z).
    { inversion FB as [|? ? B1 FB1]; subst; inversion FB1 as [|? ? B2 FB2]; subst; inversion FB2 as [|? ? B3 _]; subst; auto. }
    replace (8 - 8)%Z with 0%Z by lia.
    unfold k in NV; destruct (text_eqb magic P3).
    + cbn [map]; rewrite !NV by (auto; lia); rewrite Ep; cbn [nth]; rewrite !Z.shiftl_0_r, !Z.mod_small by tauto; reflexivity.
    + specialize (NV i 0 Hi); rewrite Nat.mul_1_l, Nat.add_0_r in NV; rewrite NV, Ep by lia; cbn [nth].
      rewrite Z.shiftl_0_r, Z.mod_small by tauto; reflexivity.
Qed.

Theorem C40_round_trip_P3 :
  forall s cap im w h m,
  rgb_image im w h -> sched1_ok s -> (255 <= m < 511)%Z -> fits (3 * (w * h)) -> fits w -> fits h -> 3 * (w * h) <= cap ->
  exists file, pnm_write im P3 m = Ok file /\ pnm_read s cap 8 file = Ok im.
Proof.
  intros s cap im w h m RI Hs Bm F Fw Fh HC.
  destruct (pnm_round_trip s cap im w h P3 m RI Hs (or_intror eq_refl) Bm F Fw Fh HC) as (file & im' & E & E' & R).
  exists file; split; auto; rewrite E'; f_equal; eapply Repr_eq; [exact R|]; apply rgb_Repr; auto.
Qed.
Print Assumptions C40_round_trip_P3.

(** greyscale: the first channel in all three channels, so grey images are restored *)
Theorem C40_round_trip_P2 :
  forall s cap im w h m,
  rgb_image im w h -> sched1_ok s -> (255 <= m < 511)%Z -> fits (3 * (w * h)) -> fits w -> fits h -> 3 * (w * h) <= cap ->
  exists file im', pnm_write im P2 m = Ok file /\ pnm_read s cap 8 file = Ok im' /\
    Repr im' w h (fun x y => repeat (nth 0 (px_at im w x y) 0%Z) 3) /\
    (Forall (fun px => px = repeat (nth 0 px 0%Z) 3) (pix im) -> im' = im).
Proof.
  intros s cap im w h m RI Hs Bm F Fw Fh HC.
  destruct (pnm_round_trip s cap im w h P2 m RI Hs (or_introl eq_refl) Bm F Fw Fh HC) as (file & im' & E & E' & R).
  exists file, im'; split; auto; split; auto; split; [exact R|].
  intros G; pose proof RI as (D & L & _); apply rgb_Repr in RI as [RI _]; eapply Repr_eq; [exact R|].
  eapply Repr_ext; [exact RI|]; intros x y Hx Hy; cbv beta.
  rewrite Forall_forall in G; apply G, nth_In; nia.
Qed.
Print Assumptions C40_round_trip_P2.

Example C40_round_trip_case :
  (let* t := pnm_write im_3x2 P3 255 in pnm_read seq0 100 8 t) = Ok im_3x2 /\
  (let* t := pnm_write im_3x2 P2 255 in pnm_read seq0 100 8 t) =
    Ok (mkImage [3; 2] [[1; 1; 1]; [4; 4; 4]; [7; 7; 7]; [255; 255; 255]; [20; 20; 20]; [50; 50; 50]]%Z).
Proof. split; vm_compute; reflexivity. Qed.

(** Not every truncation is noticed: a file cut inside its last number is read with another sample. *)
Theorem C40_truncated_number_refuted :
  exists im file im', rgb_image im 1 1 /\ pnm_write im P3 255 = Ok file /\
    pnm_read seq0 100 8 (firstn (length file - 2) file) = Ok im' /\ im' <> im.
Proof.
  exists (mkImage [1; 1] [[1; 2; 34]]%Z); eexists; eexists; split; [|split; [vm_compute; reflexivity|split; [vm_compute; reflexivity|]]].
  - split; [reflexivity|]; split; [reflexivity|]; cbn [pix]; repeat constructor; lia.
  - discriminate.
Qed.
Print Assumptions C40_truncated_number_refuted.

(** A comment glued to a number is not skipped (the PNM specification allows it): its second word is taken as a sample. *)
Theorem C40_glued_comment_refuted :
  pnm_read seq0 100 8 (chars "P2 1 1 255# note" ++ [newline] ++ chars "7") = Throw InvalidArgument.
Proof. vm_compute; reflexivity. Qed.
Print Assumptions C40_glued_comment_refuted.

(** ** C75: the PNM reader makes no stray access *)
Lemma gap_app g g' : gap g -> gap g' -> gap (g ++ g').
Proof.
  induction 1 as [|c g Hc Hg IH|b g Hb Hg IH]; intros H'; cbn [app]; [exact H' | |].
  - constructor; auto.
  - rewrite <- app_assoc; cbn [app]; apply gap_comment; auto.
Qed.

Lemma layout_gap g ts s : gap g -> layout ts s -> layout ts (g ++ s).
Proof.
  intros Hg L; inversion L as [g' Hg'|g' b Hg' Hb|g' t ts' r Hg' Ht Hb Hl]; subst.
  - apply layout_end, gap_app; auto.
  - rewrite app_assoc; apply layout_open; auto; apply gap_app; auto.
  - rewrite app_assoc; apply layout_token; auto; apply gap_app; auto.
Qed.

(** every text is the layout of some tokens *)
Lemma every_text_has_layout : forall s, exists ts, layout ts s.
Proof.
  intros s; remember (length s) as n eqn:En; assert (Hn : length s <= n) by lia; clear En; revert s Hn.
  induction n as [|n IH]; intros s Hn.
  { destruct s; [|cbn [length] in Hn; lia]; exists []; apply layout_end; constructor. }
  destruct s as [|c s]; [exists []; apply layout_end; constructor|]; cbn [length] in Hn.
  destruct (is_space c) eqn:Ec.
  - destruct (IH s) as [ts L]; [lia|]; exists ts; apply layout_space; auto.
  - destruct (Nat.eq_dec c hash) as [->|Nc].
    + destruct (in_dec Nat.eq_dec newline s) as [Hin|Hn'].
      * assert (Sp : exists b r, s = b ++ newline :: r /\ ~ In newline b).
        { clear -Hin; induction s as [|a s IHs]; [destruct Hin|].
          destruct (Nat.eq_dec a newline) as [->|Na]; [exists [], s; auto|].
          destruct Hin as [E|Hin]; [congruence|]; destruct (IHs Hin) as (b & r & -> & Hb).
          exists (a :: b), r; split; auto; intros [E|H]; auto. }
        destruct Sp as (b & r & -> & Hb).
        destruct (IH r) as [ts L]; [rewrite app_length in Hn; cbn [length] in Hn; lia|].
        exists ts; replace (hash :: b ++ newline :: r) with ((hash :: b ++ [newline]) ++ r) by (cbn [app]; rewrite <- app_assoc; reflexivity).
        apply layout_gap; auto; apply (gap_comment b []); auto; constructor.
      * exists []; apply (layout_open [] s); auto; constructor.
    + destruct (take_token (c :: s)) as [t r] eqn:E.
      assert (G : forall s t r, take_token s = (t, r) -> (forall c, In c t -> is_space c = false) /\ breaks r).
      { clear; induction s as [|a s IHs]; intros t r E; cbn [take_token] in E.
        - injection E as <- <-; split; [intros c []|exact I].
        - destruct (is_space a) eqn:Ea; [injection E as <- <-; split; [intros c [] | exact Ea]|].
          destruct (take_token s) as [t' r'] eqn:E'; injection E as <- <-; destruct (IHs _ _ eq_refl) as [H1 H2]; split; auto.
          intros x [<-|Hx]; auto. }
      destruct (G _ _ _ E) as [Ht Hb]; pose proof (take_token_split _ _ _ E) as Es.
      cbn [take_token] in E; rewrite Ec in E; destruct (take_token s) as [t' r'] eqn:E'; injection E as <- <-.
      apply (f_equal (@List.length nat)) in Es as El; cbn [app length] in El; rewrite app_length in El.
      destruct (IH r') as [ts L]; [lia|]; exists ((c :: t') :: ts); rewrite Es.
      apply (layout_token [] (c :: t') ts r'); auto; [constructor|]; split; [discriminate|]; split; auto.
Qed.

Lemma stoull_no_UB t : stoull t <> UB.
Proof. unfold stoull; destruct (parse_number t) as [[neg m]|]; [|discriminate]; destruct (two64 <=? Z.of_nat m)%Z; discriminate. Qed.
Lemma stoi_no_UB t : stoi t <> UB.
Proof.
  unfold stoi; destruct (parse_number t) as [[neg m]|]; [|discriminate]; cbv zeta.
  match goal with |- (if ?b then _ else _) <> _ => destruct b end; discriminate.
Qed.

Lemma read_samples_safe n s : read_samples n s <> UB /\ forall l, read_samples n s = Ok l -> length l = n.
Proof.
  revert s; induction n as [|n IH]; intros s; cbn [read_samples]; [split; [discriminate|intros l E; injection E as <-; auto]|].
  destruct (read_token s) as [t r]; destruct t as [|c t]; [split; [discriminate | intros l E; discriminate]|].
  pose proof (stoi_no_UB (c :: t)) as N; destruct (stoi (c :: t)) as [v| |]; cbn [bind]; [|split; [discriminate | intros l E; discriminate] | tauto].
  destruct (IH r) as [N' L']; destruct (read_samples n r) as [vs| |]; cbn [bind]; [|split; [discriminate | intros l E; discriminate] | tauto].
  split; [discriminate|]; intros l E; injection E as <-; cbn [length]; f_equal; apply L'; reflexivity.
Qed.

(** The reader on any text: a stray access or undefined operation is possible only when the header is readable and
    announces a maximum that is negative or INT_MAX, or a sample count that does not fit in size_t. *)
Theorem C75_safe_partial :
  forall s cap file, sched1_ok s -> pnm_read s cap 8 file = UB ->
  exists magic tw th w h rest, layout (magic :: tw :: th :: rest) file /\ stoull tw = Ok w /\ stoull th = Ok h /\
    (~ fits (3 * (w * h)) \/
     exists tm rest' m, rest = tm :: rest' /\ stoi tm = Ok m /\ ((m < 0)%Z \/ m = (2 ^ 31 - 1)%Z)).
Proof.
  intros s cap file Hs E; destruct (every_text_has_layout file) as [ts L]; unfold pnm_read in E.
  destruct ts as [|magic ts]; [apply read_layout_nil in L; rewrite L in E; discriminate E|].
  pose proof L as L0; apply read_layout_cons in L0 as (r0 & E0 & L0); rewrite E0 in E.
  destruct (negb (text_eqb magic P1 || text_eqb magic P2 || text_eqb magic P3)) eqn:EM; [discriminate E|].
  destruct ts as [|tw ts]; [apply read_layout_nil in L0; rewrite L0 in E; discriminate E|].
  pose proof L0 as L1; apply read_layout_cons in L1 as (r1 & E1 & L1); rewrite E1 in E.
  pose proof (stoull_no_UB tw); destruct (stoull tw) as [w| |] eqn:Ew; cbn [bind] in E; [|discriminate E|tauto].
  destruct ts as [|th ts]; [apply read_layout_nil in L1; rewrite L1 in E; discriminate E|].
  pose proof L1 as L2; apply read_layout_cons in L2 as (r2 & E2 & L2); rewrite E2 in E.
  pose proof (stoull_no_UB th); destruct (stoull th) as [h| |] eqn:Eh; cbn [bind] in E; [|discriminate E|tauto].
  exists magic, tw, th, w, h, ts; split; [exact L|]; split; [exact Ew|]; split; [exact Eh|].
  destruct (Z.le_gt_cases two64 (Z.of_nat (3 * (w * h)))) as [NF|F]; [left; unfold fits; lia|right].
  assert (FF : fits (3 * (w * h))) by (unfold fits; lia); clear F.
  (* the maximum *)
  set (mr := if text_eqb magic P1 then Ok (1%Z, r2) else let '(tm, r) := read_token r2 in let* m := stoi tm in Ok (m, r)) in E.
  assert (HM : mr <> UB /\ forall m r, mr = Ok (m, r) ->
             (text_eqb magic P1 = true /\ m = 1%Z) \/ (text_eqb magic P1 = false /\ exists tm rest', ts = tm :: rest' /\ stoi tm = Ok m)).
  { unfold mr; destruct (text_eqb magic P1); [split; [discriminate|]; intros m r Er; injection Er as <- <-; auto|].
    destruct ts as [|tm ts'].
    - apply read_layout_nil in L2; rewrite L2; cbn [stoi parse_number]; split; [discriminate | intros m r Er; discriminate Er].
    - apply read_layout_cons in L2 as (r3 & E3 & L3); rewrite E3; pose proof (stoi_no_UB tm).
      destruct (stoi tm) as [m0| |] eqn:Em; cbn [bind]; [|split; [discriminate | intros m r Er; discriminate Er]|tauto].
      split; [discriminate|]; intros m r Er; injection Er as <- <-; right; split; auto; exists tm, ts'; auto. }
  clearbody mr; destruct HM as [NU HM]; destruct mr as [[m r]| |]; cbn [bind] in E; [|discriminate E|tauto].
  specialize (HM m r eq_refl).
  destruct (Z.leb_spec m (-1)) as [Ng|Ng]; cbn [orb] in E.
  { destruct HM as [[_ ->]|[_ (tm & rest' & Ets & Em)]]; [lia|]; exists tm, rest', m; repeat split; auto; left; lia. }
  destruct (Z.eqb_spec m (2 ^ 31 - 1)) as [Mx|Mx].
  { destruct HM as [[_ ->]|[_ (tm & rest' & Ets & Em)]]; [lia|]; exists tm, rest', m; repeat split; auto. }
  exfalso.
  assert (Bm : (0 <= m < 2 ^ 31 - 1)%Z).
  { destruct HM as [[_ ->]|[_ (tm & rest' & Ets & Em)]]; [lia|].
    unfold stoi in Em; destruct (parse_number tm) as [[neg k]|]; [|discriminate Em].
    cbv zeta in Em; match type of Em with (if ?b then _ else _) = _ => destruct b eqn:Eb; [discriminate Em|] end.
    injection Em as Em; lia. }
  assert (Sh : (Z.abs (8 - Z.log2 (m + 1)) < 32)%Z).
  { assert (0 <= Z.log2 (m + 1) < 31)%Z; [|lia].
    split; [apply Z.log2_nonneg|]; apply Z.log2_lt_pow2; lia. }
  assert (F1 : fits (w * h)) by (unfold fits in *; lia).
  rewrite <- Nat2Z.inj_mul, (wn_small (w * h)) in E by auto.
  replace (Z.of_nat (w * h) * 3)%Z with (Z.of_nat (3 * (w * h))) in E by lia; rewrite (wn_small (3 * (w * h))) in E by auto.
  set (ex := if text_eqb magic P3 then 3 * (w * h) else w * h) in E.
  destruct (cap <? ex); [discriminate E|].
  destruct (read_samples_safe ex r) as [NU' HL]; destruct (read_samples ex r) as [raw| |]; cbn [bind] in E; [|discriminate E|tauto].
  specialize (HL raw eq_refl).
  destruct (cap <? w * h); [discriminate E|].
  assert (PP : forall i, exists px, i < w * h -> ppm_pixel raw magic (8 - Z.log2 (m + 1)) i = Ok px).
  { intros i; destruct (Nat.lt_ge_cases i (w * h)) as [Hi|Hi]; [|exists []; lia].
    unfold ppm_pixel; destruct (text_eqb magic P1) eqn:M1.
    - assert (i < length raw).
      { rewrite HL; unfold ex; destruct (text_eqb magic P3); lia. }
      rewrite (vget_nth_z raw i) by auto; eexists; intros _; reflexivity.
    - destruct (text_eqb magic P2) eqn:M2.
      + assert (i < length raw).
        { rewrite HL; unfold ex; destruct (text_eqb magic P3); lia. }
        rewrite (vget_nth_z raw i) by auto; cbn [bind]; rewrite shift_spec by auto; eexists; intros _; reflexivity.
      + unfold ex in HL; destruct (text_eqb magic P3) eqn:M3; [|discriminate EM].
        rewrite !vget_nth_z by lia; cbn [bind]; rewrite !shift_spec by auto; eexists; intros _; reflexivity. }
  assert (CH : exists px, forall i, i < w * h -> ppm_pixel raw magic (8 - Z.log2 (m + 1)) i = Ok (px i)).
  { exists (fun i => match ppm_pixel raw magic (8 - Z.log2 (m + 1)) i with Ok p => p | _ => [] end).
    intros i Hi; destruct (PP i) as [p Ep]; rewrite Ep by auto; reflexivity. }
  destruct CH as [px Hpx]; destruct (process_loop s raw magic _ w h px Hs F1 Hpx) as (im & Ei & _).
  rewrite Ei in E; discriminate E.
Qed.
Print Assumptions C75_safe_partial.

(** The size_t product wraps: a short file announcing 3 x 6148914691236517206 pixels writes far outside the image. *)
Theorem C75_wrapped_size_refuted :
  exists file, length file < 100 /\ pnm_read seq0 100 8 file = UB.
Proof.
  assert (Hz : exists hz, hz = 6148914691236517206%Z) by eauto; destruct Hz as [hz Ehz].
  exists (chars "P2 3 6148914691236517206 255 1 2"); split; [vm_compute; lia|].
  unfold pnm_read.
  replace (read_token (chars "P2 3 6148914691236517206 255 1 2")) with (P2, chars " 3 6148914691236517206 255 1 2") by (vm_compute; reflexivity).
  cbv beta iota; change (negb (text_eqb P2 P1 || text_eqb P2 P2 || text_eqb P2 P3)) with false; cbv iota.
  replace (read_token (chars " 3 6148914691236517206 255 1 2")) with (chars "3", chars " 6148914691236517206 255 1 2") by (vm_compute; reflexivity).
  cbv beta iota; replace (stoull (chars "3")) with (@Ok nat 3) by (vm_compute; reflexivity); cbn [bind].
  replace (read_token (chars " 6148914691236517206 255 1 2")) with (chars "6148914691236517206", chars " 255 1 2") by (vm_compute; reflexivity).
  cbv beta iota.
  assert (Dg : forall l acc (z : Z), all_digits l -> Z.of_nat acc = z ->
    Z.of_nat (digits acc l) = fold_left (fun a c => (a * 10 + (Z.of_nat c - 48))%Z) l z).
  { induction l as [|c l IH]; intros acc z Hl Ea; cbn [digits fold_left]; auto; inversion Hl; subst.
    rewrite H1; apply IH; auto; apply is_digit_spec in H1; lia. }
  assert (Ed : Z.of_nat (digits 0 (chars "6148914691236517206")) = hz).
  { rewrite (Dg _ 0 0%Z); [rewrite Ehz; vm_compute; reflexivity | | reflexivity]; repeat (constructor; [vm_compute; reflexivity|]); constructor. }
  assert (Es : stoull (chars "6148914691236517206") = Ok (Z.to_nat hz)).
  { unfold stoull; assert (Ep : parse_number (chars "6148914691236517206") = Some (false, digits 0 (chars "6148914691236517206"))) by reflexivity.
    rewrite Ep; clear Ep; revert Ed; generalize (digits 0 (chars "6148914691236517206")); intros dn Ed; rewrite Ed.
    replace (two64 <=? hz)%Z with false by (rewrite Ehz; reflexivity); cbv iota; apply f_equal; rewrite <- Ed; symmetry; apply Nat2Z.id. }
  rewrite Es; cbn [bind].
  change (text_eqb P2 P1) with false; cbv iota.
  replace (read_token (chars " 255 1 2")) with (chars "255", chars " 1 2") by (vm_compute; reflexivity).
  cbv beta iota; replace (stoi (chars "255")) with (@Ok Z 255%Z) by (vm_compute; reflexivity); cbn [bind].
  change ((255 <=? -1) || (255 =? 2 ^ 31 - 1))%Z with false; cbv iota.
  assert (W : wn (Z.of_nat 3 * Z.of_nat (Z.to_nat hz)) = 2).
  { rewrite Z2Nat.id by lia; rewrite Ehz; reflexivity. }
  rewrite W; change (text_eqb P2 P3) with false; cbv iota zeta.
  change (100 <? 2) with false; cbv iota.
  replace (read_samples 2 (chars " 1 2")) with (@Ok (list Z) [1; 2]%Z) by (vm_compute; reflexivity); cbn [bind].
  change (seq0 2) with [0; 1]; cbn [for_list]; unfold process_ppm at 1; cbn [Nat.eqb].
  replace (ppm_pixel [1; 2]%Z P2 (8 - Z.log2 (255 + 1)) 0) with (@Ok (list Z) [1; 1; 1]%Z) by (vm_compute; reflexivity); cbn [bind].
  change (0 mod 3) with 0; change (0 / 3) with 0.
  unfold atu_set; rewrite loc_unchecked_ok by reflexivity; cbn [bind dims pix].
  assert (U : usub (usub (Z.to_nat hz) 1) 0 = Z.to_nat hz - 1).
  { rewrite (usub_le (Z.to_nat hz) 1); [|unfold fits, two64; lia|lia].
    rewrite usub_le; [lia|unfold fits, two64; lia|lia]. }
  rewrite U, off2, vset_UB; [reflexivity|].
  change (length (repeat [0; 0; 0]%Z 2)) with 2.
  assert (2 <= Z.to_nat hz - 1) by lia; lia.
Qed.
Print Assumptions C75_wrapped_size_refuted.

Example C75_case : pnm_read seq0 100 8 (chars "P3 two") = Throw InvalidArgument /\ pnm_read seq0 100 8 [0; 255; 10; 35] = Throw RuntimeError.
Proof. split; vm_compute; reflexivity. Qed.

(** ** C41 *)
(** any element type whose printed form is non-empty, free of separators, and parsed back to the same value *)
Theorem C41_round_trip_partial :
  forall (A : Type) (d : A) (print : A -> text) (parse : text -> res A) s s' im w h,
  dims im = [w; h] -> length (pix im) = w * h -> 0 < w -> 0 < h -> sched1_ok s -> sched1_ok s' ->
  Forall (fun v => parse (print v) = Ok v /\ print v <> [] /\ ~ In comma (print v) /\ ~ In newline (print v)) (pix im) ->
  exists file, write_to_csv print s im = Ok file /\ read_from_csv d parse s' file = Ok im.
Proof.
  intros A d print parse s s' im w h D L Pw Ph Hs Hs' HF.
  assert (R : Repr im w h (fun x y => nth (y * w + x) (pix im) d)).
  { repeat split; auto; intros x y Hx Hy; apply nth_error_nth'; nia. }
  destruct (csv_round_trip d print parse s s' im w h _ R Hs Hs' Pw Ph) as (file & im' & E & E' & R').
  { intros x y Hx Hy; rewrite Forall_forall in HF; apply HF, nth_In; nia. }
  exists file; split; auto; rewrite E'; f_equal; eapply Repr_eq; eauto.
Qed.
Print Assumptions C41_round_trip_partial.

(** int *)
Theorem C41_int :
  forall s s' im w h,
  dims im = [w; h] -> length (pix im) = w * h -> 0 < w -> 0 < h -> sched1_ok s -> sched1_ok s' ->
  Forall (fun z => (- 2 ^ 31 <= z < 2 ^ 31)%Z) (pix im) ->
  exists file, write_to_csv dec_z s im = Ok file /\ read_from_csv 0%Z (fun t => Ok (extract_int t)) s' file = Ok im.
Proof.
  intros s s' im w h D L Pw Ph Hs Hs' HF; eapply C41_round_trip_partial; eauto.
  eapply Forall_impl; [|exact HF]; intros z Hz; cbv beta.
  split; [rewrite extract_int_dec_z by exact Hz; auto|]; split; [apply dec_z_nonempty|].
  split; intros Hi; apply dec_z_chars in Hi; unfold comma, newline, minus in *; lia.
Qed.
Print Assumptions C41_int.

(** double: integers of at most six digits *)
Theorem C41_double_partial :
  forall s s' im w h,
  dims im = [w; h] -> length (pix im) = w * h -> 0 < w -> 0 < h -> sched1_ok s -> sched1_ok s' ->
  Forall (fun q => exists z, q = inject_Z z /\ (- 10 ^ 6 < z < 10 ^ 6)%Z) (pix im) ->
  exists file, write_to_csv print_double s im = Ok file /\ read_from_csv 0%Q stod s' file = Ok im.
Proof.
  intros s s' im w h D L Pw Ph Hs Hs' HF; eapply C41_round_trip_partial; eauto.
  eapply Forall_impl; [|exact HF]; intros q (z & -> & Hz); cbv beta.
  rewrite print_double_small by exact Hz.
  split; [apply stod_dec_z|]; split; [apply dec_z_nonempty|].
  split; intros Hi; apply dec_z_chars in Hi; unfold comma, newline, minus in *; lia.
Qed.
Print Assumptions C41_double_partial.

(** doubles that need more than six significant digits are changed *)
Theorem C41_double_refuted :
  exists file, write_to_csv print_double seq0 (mkImage [1; 1] [inject_Z 1000001]) = Ok file /\
    read_from_csv 0%Q stod seq0 file = Ok (mkImage [1; 1] [inject_Z 1000000]).
Proof. exists (chars "1e+06" ++ [newline]); split; vm_compute; reflexivity. Qed.
Print Assumptions C41_double_refuted.

(** uint8_t elements are written as characters: separators and white space are lost *)
Theorem C41_uint8_refuted :
  exists file, write_to_csv (fun v => [v]) seq0 (mkImage [2; 1] [44; 7]) = Ok file /\ read_from_csv 0 (fun t => Ok (extract_u8 t)) seq0 file = Ok (mkImage [3; 1] [0; 0; 7]).
Proof. eexists; split; vm_compute; reflexivity. Qed.
Print Assumptions C41_uint8_refuted.

(** the extents of an image without columns are lost *)
Theorem C41_empty_refuted :
  exists file, write_to_csv dec_z seq0 (mkImage [0; 3] []) = Ok file /\ read_from_csv 0%Z (fun t => Ok (extract_int t)) seq0 file = Ok image_default.
Proof. eexists; split; vm_compute; reflexivity. Qed.
Print Assumptions C41_empty_refuted.

(** images that are not two-dimensional are rejected *)
Theorem C41_not_planar :
  forall (A : Type) (print : A -> text) s (im : image A), length (dims im) <> 2 -> write_to_csv print s im = Throw RuntimeError.
Proof.
  intros A print s im H; unfold write_to_csv, get_dimensionality.
  destruct (Nat.eqb_spec (length (dims im)) 2); [tauto|reflexivity].
Qed.
Print Assumptions C41_not_planar.

Example C41_case :
  write_to_csv dec_z seq0 (mkImage [2; 2] [5; -7; 0; 123]%Z) = Ok (chars "5,-7" ++ [newline] ++ chars "0,123" ++ [newline]) /\
  read_from_csv 0%Z (fun t => Ok (extract_int t)) seq0 (chars "5,-7" ++ [newline] ++ chars "0,123" ++ [newline]) =
    Ok (mkImage [2; 2] [5; -7; 0; 123]%Z).
Proof. split; vm_compute; reflexivity. Qed.
