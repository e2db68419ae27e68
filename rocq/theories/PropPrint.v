(** PropPrint.v - C140 to C144: what is printed *)
From Coq Require Import Ascii String.
From Verif Require Import Base ImageModel ImageFacts ImageProofs TextModel TextProofs NestedModel PrintModel PrintProofs.
Open Scope nat_scope.
Open Scope list_scope.

(** C140: print(separator) writes the pixels of a picture of any number of axes in order, the separator after every one, a newline after every
    run of the first axis and further newlines where the outer axes end ([written], PrintProofs.v); and the text tells the picture: two pictures
    without an empty axis that print as the same text have the same extents and the same pixels *)
Theorem C140_text {A} (show : A -> text) sep (im : image A) ds f : ReprN im ds f -> ds <> [] ->
  print_image show sep im = Ok (written (fun v => show v ++ sep) f (rev ds) []).
Proof. apply print_image_written. Qed.
Print Assumptions C140_text.

(** the usual case: row by row *)
Theorem C140_rows {A} (show : A -> text) sep (im : image A) w h f : Repr im w h f ->
  print_image show sep im =
  Ok (concat (map (fun y => concat (map (fun x => show (f x y) ++ sep) (seq 0 w)) ++ [newline]) (seq 0 h)) ++ [newline]).
Proof.
  intros R. apply Repr_ReprN in R. rewrite (print_image_written show sep im _ _ R) by discriminate. reflexivity.
Qed.
Print Assumptions C140_rows.
Theorem C140_no_axes {A} (show : A -> text) sep (im : image A) : dims im = [] -> print_image show sep im = Ok [].
Proof. intros E. unfold print_image. rewrite E. reflexivity. Qed.
Print Assumptions C140_no_axes.

Definition numeric (c : nat) : Prop := c = minus \/ 48 <= c <= 57.
(** the separators: something that is not a part of a number *)
Definition separates (sep : text) : Prop := match sep with [] => False | c :: _ => ~ numeric c end.
Definition ends_visibly (sep : text) : Prop := last sep newline <> newline.
(** a picture that has pixels *)
Definition solid {A} (im : image A) : Prop := wf im /\ dims im <> [] /\ Forall (lt 0) (dims im).

Theorem C140_decides_int sep (a b : image Z) : separates sep -> length (dims a) = length (dims b) \/ ends_visibly sep -> solid a -> solid b ->
  print_image show_int sep a = print_image show_int sep b -> a = b.
Proof.
  intros S K (Wa & Na & Fa) (Wb & Nb & Fb) E.
  assert (N : sep <> []) by (destruct sep; [contradiction|discriminate]).
  assert (S' : ~ starts is_num sep) by (destruct sep; auto).
  eapply (print_injective show_int sep); eauto using clean_int, visible_int.
  destruct K as [K|K]; [auto|right]. intros v.
  destruct (exists_last N) as (u & c & ->). exists (show_int v ++ u), c. rewrite <- app_assoc. split; auto.
  unfold ends_visibly in K. rewrite last_last in K. auto.
Qed.
Print Assumptions C140_decides_int.
(** colours and channels carry their own brackets: any separator will do, even none *)
Theorem C140_decides_rgb sep (a b : image (Z * Z * Z)) : length (dims a) = length (dims b) \/ ends_visibly sep -> solid a -> solid b ->
  print_image show_rgb sep a = print_image show_rgb sep b -> a = b.
Proof.
  intros K (Wa & Na & Fa) (Wb & Nb & Fb) E.
  eapply (print_injective show_rgb sep); eauto using clean_rgb, visible_rgb.
  destruct K as [K|K]; [auto|right]. intros [[r g] bl].
  destruct sep as [|s0 sep]; [exfalso; apply K; reflexivity|]. destruct (exists_last (l := s0 :: sep)) as (u & c & Q); [discriminate|]. rewrite Q in *.
  exists (show_rgb (r, g, bl) ++ u), c. rewrite <- app_assoc. split; auto. unfold ends_visibly in K. rewrite last_last in K. auto.
Qed.
Print Assumptions C140_decides_rgb.
Theorem C140_decides_multi sep (a b : image (list Z)) : length (dims a) = length (dims b) \/ ends_visibly sep -> solid a -> solid b ->
  print_image show_multi sep a = print_image show_multi sep b -> a = b.
Proof.
  intros K (Wa & Na & Fa) (Wb & Nb & Fb) E.
  eapply (print_injective show_multi sep); eauto using clean_multi, visible_multi.
  destruct K as [K|K]; [auto|right]. intros v.
  destruct sep as [|s0 sep]; [exfalso; apply K; reflexivity|]. destruct (exists_last (l := s0 :: sep)) as (u & c & Q); [discriminate|]. rewrite Q in *.
  exists (show_multi v ++ u), c. rewrite <- app_assoc. split; auto. unfold ends_visibly in K. rewrite last_last in K. auto.
Qed.
Print Assumptions C140_decides_multi.
(** not with every separator, and not with empty axes *)
Theorem C140_no_separator_refuted : exists a b : image Z, solid a /\ solid b /\ a <> b /\ print_image show_int [] a = print_image show_int [] b.
Proof.
  exists (mkImage [2; 1] [1; 23]%Z), (mkImage [2; 1] [12; 3]%Z).
  repeat split; try discriminate; repeat constructor.
Qed.
Print Assumptions C140_no_separator_refuted.
Theorem C140_empty_axis_refuted : exists a b : image Z, wf a /\ wf b /\ dims a <> dims b /\
  print_image show_int (text_of ",") a = print_image show_int (text_of ",") b.
Proof. exists (mkImage [2; 0] []), (mkImage [3; 0] []). repeat split; discriminate. Qed.
Print Assumptions C140_empty_axis_refuted.
Example C140_case :
  let a := mkImage [2; 2] [1; -20; 3; 4]%Z in
  solid a /\ separates (text_of ",") /\ ends_visibly (text_of ",") /\
  print_image show_int (text_of ",") a = Ok (text_of "1,-20," ++ [newline] ++ text_of "3,4," ++ [newline; newline]).
Proof. repeat split; try discriminate; repeat constructor. vm_compute. lia. Qed.
Example C140_case3 : print_image show_multi [] (mkImage [1; 1; 2] [[1; 2; 3]; [4; 5; 6]]%Z)
  = Ok (text_of "( 1 2 3) " ++ [newline; newline; newline] ++ text_of "( 4 5 6) " ++ [newline; newline; newline; newline]).
Proof. reflexivity. Qed.

Lemma ok_pair {A B} (a a' : A) (b b' : B) : Ok (a, b) = Ok (a', b') -> a = a' /\ b = b'.
Proof. intros E; injection E; auto. Qed.
Lemma ok_eq {A} (a b : A) : Ok a = Ok b -> a = b.
Proof. intros E; injection E; auto. Qed.

(** C141: the command print.  For a number and for a container the text that the command writes on its stream tells the value; for a picture it does
    not depend on the pixels, which go to the standard output instead, and there they tell the picture *)
Definition plain (v : shown) : Prop := match v with SSeq _ | SNumber _ => True | _ => False end.
Theorem C141_plain arg v1 v2 t1 t2 c1 c2 : plain v1 -> plain v2 ->
  print_command arg (Some v1) = Ok (t1, c1) -> print_command arg (Some v2) = Ok (t2, c2) -> t1 = t2 -> v1 = v2.
Proof.
  intros P1 P2 E1 E2 E. destruct v1 as [|l1|z1| |]; try contradiction; (destruct v2 as [|l2|z2| |]; try contradiction);
    cbn [print_command] in E1, E2; apply ok_pair in E1 as [<- _]; apply ok_pair in E2 as [<- _]; do 4 apply app_inv_head in E; rewrite <- ?app_assoc in E.
  - apply app_inv_head in E. apply show_seq_split in E as [-> _]; auto.
  - exfalso. assert (S : starts is_num (dec_z z2 ++ [newline] ++ text_of "Done." ++ [newline])) by apply dec_z_starts. rewrite <- E in S. cbv in S. lia.
  - exfalso. assert (S : starts is_num (dec_z z1 ++ [newline] ++ text_of "Done." ++ [newline])) by apply dec_z_starts. rewrite E in S. cbv in S. lia.
  - apply show_int_line in E as [-> _]; auto.
Qed.
Print Assumptions C141_plain.
Theorem C141_plain_total arg v : plain v -> exists t, print_command arg (Some v) = Ok (t, []).
Proof. destruct v; try contradiction; intros _; eexists; reflexivity. Qed.
Print Assumptions C141_plain_total.
Theorem C141_picture arg (im : image Z) : solid im -> exists t c, print_command arg (Some (SImage im)) = Ok (t, c) /\
  forall im' t' c', solid im' -> print_command arg (Some (SImage im')) = Ok (t', c') -> c = c' -> im = im'.
Proof.
  intros S. destruct (S) as (W & N & F). cbn [print_command]. rewrite print_image_layout by auto. cbn [bind].
  eexists; eexists; split; [reflexivity|]. intros im' t' c' S' E Ec. destruct (S') as (W' & N' & F'). rewrite print_image_layout in E by auto.
  cbn [bind] in E. injection E as _ <-.
  apply (C140_decides_int (text_of ",")); auto; [vm_compute; lia|right; vm_compute; discriminate|]. rewrite !print_image_layout by auto. f_equal. exact Ec.
Qed.
Print Assumptions C141_picture.
Theorem C141_picture_stream_refuted arg : exists a b t ca cb, solid a /\ solid b /\ a <> b /\
  print_command arg (Some (SImage a)) = Ok (t, ca) /\ print_command arg (Some (SImage b)) = Ok (t, cb).
Proof.
  exists (mkImage [1; 1] [1]%Z), (mkImage [1; 1] [2]%Z). do 3 eexists. repeat split; try discriminate; repeat constructor.
Qed.
Print Assumptions C141_picture_stream_refuted.
(** info writes the extents of a picture, and they can be read *)
Theorem C141_info arg (a b : image Z) wa ha fa wb hb fb : Repr a wa ha fa -> Repr b wb hb fb ->
  (exists t, info_command arg (Some (SImage a)) = Ok t) /\
  (info_command arg (Some (SImage a)) = info_command arg (Some (SImage b)) <-> wa = wb /\ ha = hb).
Proof.
  intros Ra Rb. cbn [info_command]. rewrite (get_width_Repr _ _ _ _ Ra), (get_height_Repr _ _ _ _ Ra), (get_width_Repr _ _ _ _ Rb), (get_height_Repr _ _ _ _ Rb). cbn [bind].
  split; [eexists; reflexivity|]. split; [|intros [-> ->]; auto]. intros E. apply ok_eq in E.
  do 6 apply app_inv_head in E.
  apply dec_split in E as [-> E]; [|apply newline_not_num|apply newline_not_num]. do 2 apply app_inv_head in E.
  apply dec_split in E as [-> _]; auto; apply newline_not_num.
Qed.
Print Assumptions C141_info.
Example C141_case : print_command (text_of "$x") (Some (SSeq [1; -2]%Z))
  = Ok (text_of "Printing scalar value for $x:" ++ [newline] ++ text_of "container value = {1, -2}" ++ [newline] ++ text_of "Done." ++ [newline], []).
Proof. reflexivity. Qed.
Example C141_case_info : info_command (text_of "$x") (Some (SImage (mkImage [12; 1] (repeat 0%Z 12))))
  = Ok (text_of "Image Info:" ++ [newline] ++ text_of "  Source: $x" ++ [newline] ++ text_of "  Width:  12" ++ [newline] ++ text_of "  Height: 1" ++ [newline]).
Proof. reflexivity. Qed.

(** C142: the command vars.  If names have no blanks and type names no closing bracket, the list tells which variables there are, in their order, and of
    every one the name, the type and the summary: the extents of a picture, the number of pictures and the extents of the first, the elements of a
    container of numbers, the number *)
Theorem C142_vars unlisted l1 l2 : Forall good_var l1 -> Forall good_var l2 -> vars_command unlisted l1 = vars_command unlisted l2 ->
  map (fun x => (fst x, summarise (snd x))) l1 = map (fun x => (fst x, summarise (snd x))) l2.
Proof.
  intros F1 F2 E. unfold vars_command in E. do 2 apply app_inv_head in E.
  destruct l1 as [|x l1], l2 as [|y l2]; cbn [list_variables] in E; auto.
  - exfalso. destruct y as [[n ty] v]. discriminate E.
  - exfalso. destruct x as [[n ty] v]. discriminate E.
  - eapply var_lines_inj; eauto.
Qed.
Print Assumptions C142_vars.
Theorem C142_blank_refuted unlisted : exists l1 l2, l1 <> l2 /\ vars_command unlisted l1 = vars_command unlisted l2 /\
  map (fun x => fst (fst x)) l1 <> map (fun x => fst (fst x)) l2.
Proof.
  exists [(text_of "a", text_of "t", SNumber 1)], [(text_of "a ", text_of "t", SNumber 1)]. repeat split; discriminate.
Qed.
Print Assumptions C142_blank_refuted.
Example C142_case : let v := [(text_of "a", text_of "int", SNumber 7); (text_of "img", text_of "Image<int>", SImage (mkImage [2; 1] [0; 0]%Z))] in
  Forall good_var v /\ vars_command (fun _ => []) v =
  text_of "Current Workspace Variables:" ++ [newline] ++ text_of "  $a               : [int], scalar value = 7" ++ [newline] ++
  text_of "  $img             : [Image<int>], size = 2 x 1" ++ [newline].
Proof. split; [|reflexivity]. repeat constructor; try discriminate; cbv; lia. Qed.

(** C143: print_with_latex.  The text has one line for every pixel, row by row, with its place and its colour, between the two lines that open and
    close the picture; and the text tells the picture *)
Definition latex_pixel (x y : nat) (p : Z * Z * Z) : text :=
  let '(r, g, b) := p in
  text_of "\draw (" ++ dec x ++ text_of "," ++ dec y ++ text_of ") node[anchor=south,fill={rgb:red," ++ dec_z r ++
  text_of ";green," ++ dec_z g ++ text_of ";blue," ++ dec_z b ++ text_of "}] {};" ++ [newline].
Theorem C143_latex im w h f : Repr im w h f ->
  latex im = Ok (text_of "\begin{tikzpicture}[x=1cm,y=0.4cm]" ++ [newline] ++
                 concat (map (fun y => concat (map (fun x => latex_pixel x y (f x y)) (seq 0 w))) (seq 0 h)) ++
                 text_of "\end{tikzpicture}" ++ [newline]).
Proof.
  intros R. rewrite (latex_written im w h f R). unfold latex_text. do 4 f_equal. unfold cells. rewrite map_map. cbn [fst snd].
  unfold grid. generalize (seq 0 h) as ys. induction ys as [|y ys IH]; [reflexivity|]. cbn [pairs flat_map map concat]. rewrite map_app, concat_app. f_equal; auto.
  rewrite map_map. reflexivity.
Qed.
Print Assumptions C143_latex.
Theorem C143_decides a wa ha fa b wb hb fb : Repr a wa ha fa -> Repr b wb hb fb -> 0 < wa -> 0 < ha -> 0 < wb -> 0 < hb ->
  latex a = latex b -> a = b.
Proof.
  intros Ra Rb Wa Ha Wb Hb E. rewrite (latex_written _ _ _ _ Ra), (latex_written _ _ _ _ Rb) in E. apply ok_eq in E.
  apply (latex_text_inj wa ha fa wb hb fb) in E as (<- & <- & E); auto. eapply Repr_unique; eauto.
Qed.
Print Assumptions C143_decides.
Theorem C143_empty_refuted : exists a b, wf a /\ wf b /\ a <> b /\ latex a = latex b /\ exists t, latex a = Ok t.
Proof. exists (mkImage [0; 1] []), (mkImage [1; 0] []). repeat split; try discriminate. eexists; reflexivity. Qed.
Print Assumptions C143_empty_refuted.
Example C143_case : latex (mkImage [1; 1] [(1, 2, 3)]%Z) =
  Ok (text_of "\begin{tikzpicture}[x=1cm,y=0.4cm]" ++ [newline] ++
      text_of "\draw (0,0) node[anchor=south,fill={rgb:red,1;green,2;blue,3}] {};" ++ [newline] ++ text_of "\end{tikzpicture}" ++ [newline]).
Proof. reflexivity. Qed.

(** C144: recursive_print.  For containers of integers nested to the same depth, of any shapes, with empty containers anywhere: the text tells the
    container; and the lines that are indented by the depth are the elements, in order *)
Theorem C144_decides d (x y : nest d Z) : recursive_print show_int d 0 x = recursive_print show_int d 0 y -> x = y.
Proof.
  intros E. eapply (recursive_print_split show_int show_int_head show_int_line d 0 x y [] []); [left|left|]; auto. rewrite E; auto.
Qed.
Print Assumptions C144_decides.
Theorem C144_elements d (x : nest d Z) :
  map (skipn d) (filter (fun l => indent l =? d) (lines (recursive_print show_int d 0 x))) = map dec_z (leaves d x).
Proof.
  assert (N : forall a, Forall (fun c => c <> newline) (show_int a)).
  { intros a. eapply Forall_impl; [|apply dec_z_num]. intros c [->|H]; unfold minus, newline; lia. }
  pose proof (recursive_print_lines show_int show_int_head N d 0 x []) as H.
  rewrite app_nil_r in H. cbn [Nat.add] in H. rewrite H. cbn. apply app_nil_r.
Qed.
Print Assumptions C144_elements.
Example C144_case : recursive_print show_int 2 0 [[5]; []]%Z
  = text_of "Level 0:" ++ [newline] ++ text_of " Level 1:" ++ [newline] ++ text_of "  5" ++ [newline] ++ text_of " Level 1:" ++ [newline].
Proof. reflexivity. Qed.
