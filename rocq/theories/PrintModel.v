(** PrintModel.v - what is printed: image.h: print; base_types.h: operator<<; basic_functions.h: recursive_print;
    image_operations.h: print_with_latex; main.cpp: the commands print and info; main.h: Workspace::list_variables.

    Text is a list of character codes (TextModel.v).  Elements are integers, channels of integers, or abstract with a function
    that shows them; how floating point numbers are written is not modelled. *)
From Coq Require Import Ascii String.
From Verif Require Import Base ImageModel TextModel NestedModel.
Open Scope nat_scope.

Definition text_of (s : string) : text := chars s.
Definition spaces (n : nat) : text := repeat 32 n.

(** ** elements *)
(** image.h:483-493  a number: +value *)
Definition show_int (z : Z) : text := dec_z z.
(** base_types.h:66-70  RGB: {r, g, b} *)
Definition show_rgb (p : Z * Z * Z) : text :=
  let '(r, g, b) := p in text_of "{" ++ dec_z r ++ text_of ", " ++ dec_z g ++ text_of ", " ++ dec_z b ++ text_of "}".
(** image.h:448-467  MultiChannel: a bracket, the channels with blanks between them, a bracket and a blank *)
Fixpoint show_channels (l : list Z) : text :=
  match l with
  | [] => []
  | [a] => dec_z a
  | a :: r => dec_z a ++ text_of " " ++ show_channels r
  end.
Definition show_multi (l : list Z) : text := text_of "( " ++ show_channels l ++ text_of ") ".

(** ** image.h:431-500 and 784-825  print *)
Section Print.
  Context {A : Type} (show : A -> text) (sep : text) (im : image A).

  (** print_recursive_helper; the vector of indices is shared by all calls *)
  Fixpoint print_helper (current_dim : nat) (st : list nat * text) : res (list nat * text) :=
    match current_dim with
    | O =>
        let* n := vget (dims im) 0 in
        for_range n (fun i st =>
          let '(indices, out) := st in
          let* indices := vset indices 0 i in
          let* v := atu_range im indices in
          Ok (indices, out ++ show v ++ sep)) st
    | S lower =>
        let* n := vget (dims im) current_dim in
        let* (indices, out) := for_range n (fun i st =>
          let '(indices, out) := st in
          let* indices := vset indices current_dim i in
          let* (indices, out) := print_helper lower (indices, out) in
          Ok (indices, out ++ [newline])) st in
        Ok (indices, out ++ [newline])
    end.

  Definition print_image : res text :=
    match dims im with
    | [] => Ok []
    | ds => let* (_, out) := print_helper (length ds - 1) (repeat 0 (length ds), []) in Ok out
    end.
End Print.

(** ** image_operations.h:1736-1777  print_with_latex and print_with_latex_to_file *)
Definition latex_line (x y : nat) (p : Z * Z * Z) : text :=
  let '(r, g, b) := p in
  text_of "\draw (" ++ dec x ++ text_of "," ++ dec y ++ text_of ") node[anchor=south,fill={rgb:red," ++ dec_z r ++
  text_of ";green," ++ dec_z g ++ text_of ";blue," ++ dec_z b ++ text_of "}] {};" ++ [newline].
Definition latex (im : image (Z * Z * Z)) : res text :=
  let* w := get_width im in let* h := get_height im in
  let* out := for_list (grid h w) (fun p out =>
    let* v := at_ im [snd p; fst p] in Ok (out ++ latex_line (snd p) (fst p) v))
    (text_of "\begin{tikzpicture}[x=1cm,y=0.4cm]" ++ [newline]) in
  Ok (out ++ text_of "\end{tikzpicture}" ++ [newline]).

(** ** basic_functions.h:836-855  recursive_print of a container nested [d] deep *)
Fixpoint recursive_print {A} (show : A -> text) (d : nat) (level : nat) : nest d A -> text :=
  match d with
  | O => fun a => spaces level ++ show a ++ [newline]
  | S d' => fun l => spaces level ++ text_of "Level " ++ dec level ++ text_of ":" ++ [newline] ++
                     concat (map (recursive_print show d' (S level)) l)
  end.

(** ** what the workspace holds: images of integers, containers of integers, integers, containers of images (their number and the
    extents of the first), and other things *)
Inductive shown :=
| SImage (im : image Z)
| SSeq (l : list Z)
| SNumber (z : Z)
| SImages (l : list (list nat))
| SOther.

(** the elements of a container, with a comma and a blank between them *)
Fixpoint show_seq (l : list Z) : text :=
  match l with
  | [] => []
  | [a] => dec_z a
  | a :: r => dec_z a ++ text_of ", " ++ show_seq r
  end.

(** ** main.cpp:330-423  print.  The text on the stream that the command is given, and the text on std::cout: the picture is
    written with the default stream of Image::print *)
Definition print_command (arg : text) (v : option shown) : res (text * text) :=
  match v with
  | Some (SImage im) =>
      let* t := print_image show_int (text_of ",") im in
      Ok (text_of "Printing image content for " ++ arg ++ text_of ":" ++ [newline] ++ text_of "Done." ++ [newline], t)
  | Some (SSeq l) =>
      Ok (text_of "Printing scalar value for " ++ arg ++ text_of ":" ++ [newline] ++ text_of "container value = {" ++ show_seq l ++
          text_of "}" ++ [newline] ++ text_of "Done." ++ [newline], [])
  | Some (SNumber z) =>
      Ok (text_of "Printing scalar value for " ++ arg ++ text_of ":" ++ [newline] ++ dec_z z ++ [newline] ++ text_of "Done." ++ [newline], [])
  | _ => Ok (text_of "Error: Memory variable not found or unsupported type." ++ [newline], [])
  end.

(** main.cpp:218-257  info *)
Definition info_command (arg : text) (v : option shown) : res text :=
  match v with
  | Some (SImage im) =>
      let* w := get_width im in let* h := get_height im in
      Ok (text_of "Image Info:" ++ [newline] ++ text_of "  Source: " ++ arg ++ [newline] ++ text_of "  Width:  " ++ dec w ++ [newline] ++
          text_of "  Height: " ++ dec h ++ [newline])
  | _ => Ok (text_of "Error: Memory variable not found or unsupported type." ++ [newline])
  end.

(** ** main.h:440-611  list_variables.  A variable has a name, the name of its type and a value; SOther: a type that is not listed
    (its line is abstract) *)
Fixpoint show_size (ds : list nat) : text :=
  match ds with
  | [] => []
  | [n] => dec n
  | n :: r => dec n ++ text_of " x " ++ show_size r
  end.
(** std::left << std::setw(15) *)
Definition padded (name : text) : text := name ++ spaces (15 - length name).
Definition details (v : shown) : text :=
  match v with
  | SImage im => text_of ", size = " ++ show_size (dims im)
  | SImages l => text_of ", count = " ++ dec (length l) ++
      match l with [] => [] | ds :: _ => text_of " (first image size: " ++ show_size ds ++ text_of ")" end
  | SSeq l => text_of ", container value = {" ++ show_seq l ++ text_of "}"
  | SNumber z => text_of ", scalar value = " ++ dec_z z
  | SOther => []
  end.
Section Vars.
  (** the rest of the line for a type that is not listed: [Type Hash: ...] ... *)
  Variable unlisted : text -> text.
  Definition var_line (x : text * text * shown) : text :=
    let '(name, type, v) := x in
    text_of "  $" ++ padded name ++
    match v with
    | SOther => text_of " : [Type Hash: " ++ unlisted type
    | _ => text_of " : [" ++ type ++ text_of "]" ++ details v
    end ++ [newline].
  Definition list_variables (vars : list (text * text * shown)) : text :=
    match vars with
    | [] => text_of "  (Workspace is empty)" ++ [newline]
    | _ => concat (map var_line vars)
    end.
  (** main.cpp:993-1001  vars *)
  Definition vars_command (vars : list (text * text * shown)) : text :=
    text_of "Current Workspace Variables:" ++ [newline] ++ list_variables vars.
End Vars.
