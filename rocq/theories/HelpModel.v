(** HelpModel.v - what the registry of commands prints, and the table of the program's commands: main.h: CommandRegistry; main.cpp: main,
    command_registration; plugin_math.cpp, plugin_math_add.cpp, plugin_replace.cpp. *)
From Coq Require Import Ascii String.
From Verif Require Import Base CliModel.
Open Scope nat_scope.
Open Scope list_scope.

Definition nl : str := [ascii_of_nat 10].
(** main.h:789-870  CommandRegistry with the descriptions of the commands.  A handler has a text, a state and, when an exception of
    a class derived from std::exception leaves it, the text of the exception; [S] is the state of the session *)
Section Registry.
  Variable S : Type.
  Definition talking := list str -> S -> str * S * option str.
  Definition described := list (str * (str * talking)).
  (** main.h:819-828 *)
  Definition describe (name text : str) (h : talking) (r : described) : described := map_emplace name (text, h) r.
  (** main.h:844  std::left << std::setw(15) << name; a string of spaces *)
  Definition column (name : str) : str := name ++ repeat " "%char (15 - length name).
  Definition command_line (name text : str) : str := lit "  " ++ column name ++ lit " : " ++ text ++ nl.
  (** main.h:846-848 *)
  Definition tips : str :=
    nl ++ lit "Usage: ./tinydip <command> [args...]" ++ nl
    ++ lit "Tip: Use '$name' to read/write from in-memory variables." ++ nl
    ++ lit "Tip: Chain commands with '|' pipelines. (e.g. read file.bmp | bicubic_resize 512 512 | $out)" ++ nl.
  (** main.h:839-849  list_commands *)
  Definition list_commands (r : described) : str :=
    lit "Available Commands:" ++ nl ++ flat_map (fun e => command_line (fst e) (fst (snd e))) r ++ tips.
  (** main.h:851-869  execute *)
  Definition execute_text (r : described) (name : str) (args : list str) (st : S) : str * S :=
    match map_find name r with
    | Some (_, h) =>
        let '(t, st', e) := h args st in
        (match e with
         | Some what => t ++ lit "Error executing command '" ++ name ++ lit "': " ++ what ++ nl
         | None => t
         end, st')
    | None => (lit "Unknown command: " ++ name ++ nl ++ list_commands r, st)
    end.
  (** main.h:3050-3060 and main.cpp:1647-1652  help; the registry is captured by reference, so it is the one at the time of the call *)
  Definition help (r : described) : talking := fun _ st => (list_commands r, st, None).
End Registry.

(** main.cpp:1462-1669 and 1153-1171  the commands in the order in which they are registered, with description and schema *)
Definition program : list (str * str * schema) := [
   (lit "append_element", lit "Append an element to the back of a container using emplace_back.", CombinerSchema);
   (lit "bicubic_resize", lit "Resize an image using Bicubic interpolation.", TransformerSchema);
   (lit "constructRGB", lit "Merge separate R, G, and B planes into an RGB image.", IndependentSchema);
   (lit "copy", lit "Copy a memory variable in the workspace to a new variable.", IndependentSchema);
   (lit "create_container", lit "Create a std::vector container initialized with the provided prototype element.", TransformerSchema);
   (lit "dct2", lit "Calculate Discrete Cosine Transformation for an image.", TransformerSchema);
   (lit "dct3", lit "Calculate three-dimensional Discrete Cosine Transformation for an image.", TransformerSchema);
   (lit "erase_element", lit "Erase an element from a container by index.", TransformerSchema);
   (lit "gaussian_figure_2d", lit "Generate a 2D Gaussian figure image.", GeneratorSchema);
   (lit "get_element", lit "Extract an element from a container (e.g., an octave vector) by index.", TransformerSchema);
   (lit "getBplane", lit "Extract the Blue plane (channel 2) from a multi-channel image.", TransformerSchema);
   (lit "getGplane", lit "Extract the Green plane (channel 1) from a multi-channel image.", TransformerSchema);
   (lit "getRplane", lit "Extract the Red plane (channel 0) from a multi-channel image.", TransformerSchema);
   (lit "get_sift_potential_keypoint", lit "Extract SIFT potential keypoints from an image.", TransformerSchema);
   (lit "grid", lit "Generate a grid image.", GeneratorSchema);
   (lit "hsv2rgb", lit "Convert an HSV image or container to RGB color space.", TransformerSchema);
   (lit "idct2", lit "Calculate Inverse Discrete Cosine Transformation for an image.", TransformerSchema);
   (lit "im2double", lit "Convert an image or container to double precision floating-point.", TransformerSchema);
   (lit "im2uint8", lit "Convert an image or container to 8-bit unsigned integers.", TransformerSchema);
   (lit "info", lit "Display basic information about an image.", TerminatorSchema);
   (lit "lanczos_resample", lit "Resize an image using Lanczos resampling.", TransformerSchema);
   (lit "load_workspace", lit "Load memory variables from a directory bundle.", IndependentSchema);
   (lit "multiply", lit "Multiply an image or container by a scalar.", TransformerSchema);
   (lit "normalize", lit "Normalize an image or container.", TransformerSchema);
   (lit "ones", lit "Generate an image filled with ones.", GeneratorSchema);
   (lit "print", lit "Print the contents of a memory variable.", TerminatorSchema);
   (lit "rand", lit "Generate random multi-dimensional image with specified URBG.", GeneratorSchema);
   (lit "read", lit "Read an image from disk into a memory variable.", GeneratorSchema);
   (lit "remove", lit "Remove memory variables from the workspace (or 'all' to clear).", IndependentSchema);
   (lit "rename", lit "Rename a memory variable in the workspace.", IndependentSchema);
   (lit "rotate", lit "Rotate an image using shear transformations.", TransformerSchema);
   (lit "save_workspace", lit "Save all memory variables to a directory bundle.", IndependentSchema);
   (lit "sift_generate_octave", lit "Generate a SIFT octave (Difference of Gaussian images).", TransformerSchema);
   (lit "subimage", lit "Extract a sub-region from an image.", TransformerSchema);
   (lit "to_complex", lit "Convert an image or container to a complex number format.", TransformerSchema);
   (lit "vars", lit "List all currently allocated memory variables.", IndependentSchema);
   (lit "write", lit "Write a memory variable out to a disk file.", TerminatorSchema);
   (lit "zeros", lit "Generate an image filled with zeros.", GeneratorSchema);
   (lit "test", lit "Run internal integration tests.", IndependentSchema);
   (lit "batch_add_zeros", lit "Add leading zeros to filenames in a directory.", IndependentSchema);
   (lit "count", lit "Count occurrences of a specific value in an image or container.", CombinerSchema);
   (lit "help", lit "List all available commands.", IndependentSchema);
   (lit "transform_container", lit "Apply a CLI command dynamically to each element of a container sequentially or parallelly.", IndependentSchema);
   (lit "load_plugins", lit "Dynamically load plugin modules from a specified directory.", IndependentSchema)].
(** plugin_math.cpp:11-46 *)
Definition plugin_math : list (str * str * schema) := [
   (lit "abs", lit "Calculate the absolute value of an image or container.", TransformerSchema);
   (lit "max", lit "Calculate the maximum value of an image or container.", TransformerSchema);
   (lit "min", lit "Calculate the minimum value of an image or container.", TransformerSchema);
   (lit "subtract", lit "Subtract two images or containers pixel-wise.", CombinerSchema);
   (lit "sum", lit "Calculate the sum of all elements in an image or container.", TransformerSchema)].
(** plugin_math_add.cpp:11-18 *)
Definition plugin_math_add : list (str * str * schema) := [
   (lit "add", lit "Add two images or containers pixel-wise.", CombinerSchema)].
(** plugin_replace.cpp:11-18 *)
Definition plugin_replace : list (str * str * schema) := [
   (lit "replace", lit "Replace specific value in an image or container to a new value.", mkSchema 0 3)].

(** Where the handlers look for their data: the position of the argument with the input and of the argument with the output, and whether
    policy words are taken out before the arguments are counted (main.h: the handlers and their usage texts; main.cpp:225-1066) *)
Record usage := mkUsage { reads : option nat; writes : option nat; filters : bool }.
Definition usages : list (str * usage) := [
   (lit "append_element", mkUsage (Some 0) (Some 2) false);
   (lit "bicubic_resize", mkUsage (Some 0) (Some 1) true);
   (lit "constructRGB", mkUsage (Some 0) (Some 3) true);
   (lit "copy", mkUsage (Some 0) (Some 1) false);
   (lit "create_container", mkUsage (Some 0) (Some 1) false);
   (lit "dct2", mkUsage (Some 0) (Some 1) true);
   (lit "dct3", mkUsage (Some 0) (Some 1) true);
   (lit "erase_element", mkUsage (Some 0) (Some 1) false);
   (lit "gaussian_figure_2d", mkUsage (None) (Some 0) false);
   (lit "get_element", mkUsage (Some 0) (Some 1) false);
   (lit "getBplane", mkUsage (Some 0) (Some 1) true);
   (lit "getGplane", mkUsage (Some 0) (Some 1) true);
   (lit "getRplane", mkUsage (Some 0) (Some 1) true);
   (lit "get_sift_potential_keypoint", mkUsage (Some 0) (Some 1) true);
   (lit "grid", mkUsage (None) (Some 0) true);
   (lit "hsv2rgb", mkUsage (Some 0) (Some 1) true);
   (lit "idct2", mkUsage (Some 0) (Some 1) true);
   (lit "im2double", mkUsage (Some 0) (Some 1) true);
   (lit "im2uint8", mkUsage (Some 0) (Some 1) true);
   (lit "info", mkUsage (Some 0) (None) false);
   (lit "lanczos_resample", mkUsage (Some 0) (Some 1) true);
   (lit "load_workspace", mkUsage (None) (None) false);
   (lit "multiply", mkUsage (Some 0) (Some 1) true);
   (lit "normalize", mkUsage (Some 0) (Some 1) true);
   (lit "ones", mkUsage (None) (Some 0) false);
   (lit "print", mkUsage (Some 0) (None) false);
   (lit "rand", mkUsage (None) (Some 1) false);
   (lit "read", mkUsage (None) (Some 1) false);
   (lit "remove", mkUsage (None) (None) false);
   (lit "rename", mkUsage (None) (None) false);
   (lit "rotate", mkUsage (Some 0) (Some 1) true);
   (lit "save_workspace", mkUsage (None) (None) false);
   (lit "sift_generate_octave", mkUsage (Some 0) (Some 1) false);
   (lit "subimage", mkUsage (Some 0) (Some 1) true);
   (lit "to_complex", mkUsage (Some 0) (Some 1) true);
   (lit "vars", mkUsage (None) (None) false);
   (lit "write", mkUsage (Some 0) (None) false);
   (lit "zeros", mkUsage (None) (Some 0) false);
   (lit "test", mkUsage (None) (None) false);
   (lit "batch_add_zeros", mkUsage (None) (None) false);
   (lit "count", mkUsage (Some 0) (Some 2) true);
   (lit "help", mkUsage (None) (None) false);
   (lit "transform_container", mkUsage (Some 0) (Some 1) true);
   (lit "load_plugins", mkUsage (None) (None) false);
   (lit "abs", mkUsage (Some 0) (Some 1) true);
   (lit "max", mkUsage (Some 0) (Some 1) true);
   (lit "min", mkUsage (Some 0) (Some 1) true);
   (lit "subtract", mkUsage (Some 0) (Some 2) true);
   (lit "sum", mkUsage (Some 0) (Some 1) true);
   (lit "add", mkUsage (Some 0) (Some 2) true);
   (lit "replace", mkUsage (Some 0) (Some 3) true)].
(** the arguments as the handler counts them *)
Definition seen (u : usage) (args : list str) : list str := if filters u then args_filter args else args.
