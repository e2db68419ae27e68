(** BundleModel.v - main.h: save_workspace and load_workspace.

    A double is its bit pattern, a number below 2^64, and a file is its list of bytes.  The file system is a map from path
    names to files; that two path names may name the same file is not modelled.  Directories are not modelled either:
    [can_create p] says whether fopen(p, "wb") succeeds.  Console output is left out. *)
From Coq Require Import Ascii String.
From Verif Require Import Base ImageModel BmpModel CliModel.
Open Scope nat_scope.

(** ** doubles in a file: eight bytes, the low one first *)
Definition double_bytes (d : Z) : list Z := map (byte d) (seq 0 8).
(** fread of elements of eight bytes; an incomplete last element is not stored *)
Fixpoint doubles (fuel : nat) (file : list Z) : list Z :=
  match fuel, file with
  | S n, b0 :: b1 :: b2 :: b3 :: b4 :: b5 :: b6 :: b7 :: r =>
      (b0 + b1 * 2 ^ 8 + b2 * 2 ^ 16 + b3 * 2 ^ 24 + b4 * 2 ^ 32 + b5 * 2 ^ 40 + b6 * 2 ^ 48 + b7 * 2 ^ 56)%Z :: doubles n r
  | _, _ => []
  end.
Definition file_of (hc : list Z * list Z) : list Z := fst hc ++ flat_map double_bytes (snd hc).
Definition cells_of (file : list Z) : list Z := doubles (length file) (skipn 54 file).

(** ** values of variables; [Other] is any type that save_workspace skips *)
Inductive value :=
| Rgb (im : image (list Z))
| Dbl (im : image Z)
| Hsv (im : image (list Z))
| Other (n : nat).
(** the std::any of a value: the number of its type comes with it *)
Definition item (v : value) : any value := (match v with Rgb _ => 0 | Dbl _ => 1 | Hsv _ => 2 | Other _ => 3 end, v).
Definition ws := workspace value.

(** ** std::filesystem::path *)
Definition slash : ascii := "/"%char.
Definition dot : ascii := "."%char.
Definition starts_slash (s : str) : bool := match s with c :: _ => Ascii.eqb c slash | [] => false end.
(** the text of [dir] with what operator/ puts before a relative path *)
Definition dir_prefix (dir : str) : str := if starts_slash (rev dir) then dir else dir ++ [slash].
(** dir_path / name *)
Definition path_append (dir name : str) : str := if starts_slash name then name else dir_prefix dir ++ name.
(** the last dot of a reversed file name *)
Fixpoint split_dot (r ext : str) : option (str * str) :=
  match r with
  | [] => None
  | c :: r => if Ascii.eqb c dot then Some (rev r, c :: ext) else split_dot r (c :: ext)
  end.
(** stem() and extension() of a file name: a dot at the beginning does not start an extension *)
Definition stem_extension (fn : str) : str * str :=
  if eqs fn ".."%string then (fn, [])
  else match split_dot (rev fn) [] with
       | None | Some ([], _) => (fn, [])
       | Some (s, e) => (s, e)
       end.

(** what directory_iterator gives: the regular files directly in the directory, here in the order of the map *)
Definition fs := list (str * list Z).
Fixpoint drop_prefix (p s : str) : option str :=
  match p, s with
  | [], _ => Some s
  | c :: p, d :: s => if Ascii.eqb c d then drop_prefix p s else None
  | _, [] => None
  end.
Definition has_slash (s : str) : bool := existsb (fun c => Ascii.eqb c slash) s.
Definition listing (dir : str) (f : fs) : list (str * list Z) :=
  flat_map (fun e =>
    match drop_prefix (dir_prefix dir) (fst e) with
    | Some fn => match fn with [] => [] | _ => if has_slash fn then [] else [(fn, snd e)] end
    | None => []
    end) f.

Section Bundle.
  Variable alloc : nat -> bool.
  (** fresh memory for bytes and for doubles *)
  Variable junk junk8 : nat -> list Z.
  Variable can_create : str -> bool.

  (** image_io.cpp:349-369, 457-467, 585-594: the extension is appended, then fopen; a failure to open gives -1, which
      save_workspace ignores *)
  Definition write_file (path : str) (bytes : list Z) (f : fs) : fs :=
    if can_create path then map_set path bytes f else f.

  (** main.h:4411-4467  one variable.  The images have got their bytes before the file is opened.  None: skipped *)
  Definition encode (v : value) : option (res (list Z) * str) :=
    match v with
    | Rgb im => Some (bmp_write junk im, lit ".bmp")
    | Dbl im => Some ((let* hc := dwrite junk8 im in Ok (file_of hc)), lit ".dbmp")
    | Hsv im => Some ((let* hc := hwrite junk8 im in Ok (file_of hc)), lit ".hsv")
    | Other _ => None
    end.
  (** 4388-4469  the loop over memory_store; an exception ends it, and what has been written stays *)
  Fixpoint save_vars (dir : str) (w : ws) (f : fs) : fs * res unit :=
    match w with
    | [] => (f, Ok tt)
    | (name, (_, v)) :: w =>
        match encode v with
        | None => save_vars dir w f
        | Some (Ok bytes, ext) => save_vars dir w (write_file (path_append dir name ++ ext) bytes f)
        | Some (Throw e, _) => (f, Throw e)
        | Some (UB, _) => (f, UB)
        end
    end.
  (** create_directories throws for an empty path *)
  Definition save_workspace (arg : str) (w : ws) (f : fs) : fs * res unit :=
    match sanitize arg with
    | [] => (f, Throw RuntimeError)
    | dir => save_vars dir w f
    end.

  (** ** reading, with the number of files that may still be opened *)
  (** image_io.cpp:180-296  bmp_read: the file opened at 201 is never closed; the functions that read the two extents open
      the file once more each, and give -1 when that fails *)
  Definition bmp_open (avail : nat) (file : list Z) : res (image (list Z)) * nat :=
    match avail with
    | O => (Throw RuntimeError, O)
    | S O => (raw_image_to_array 0 0 None, O)
    | S n => (bmp_read alloc junk file, n)
    end.
  (** the extents as image_io.cpp:498-499 and 626-627 see them *)
  Definition extent_failed (file : list Z) : bool :=
    match le32 file 18, le32 file 22 with Ok x, Ok y => ((s32 x =? -1) || (s32 y =? -1))%Z | _, _ => false end.
  (** image_io.cpp:480-527  double_image::read, 608-657 hsv_read: the file is closed, except when an extent is -1 *)
  Definition two_opens {A} (avail : nat) (file : list Z) (empty : image A) (read : res (image A)) : res (image A) * nat :=
    match avail with
    | O => (Ok empty, O)
    | S O => (Ok empty, O)
    | S n => (read, if extent_failed file then n else avail)
    end.
  Definition double_open (avail : nat) (file : list Z) : res (image Z) * nat :=
    two_opens avail file (image_sizes 0%Z [0; 0]) (dread 0%Z file (cells_of file)).
  Definition hsv_open (avail : nat) (file : list Z) : res (image (list Z)) * nat :=
    two_opens avail file (image_sizes [0; 0; 0]%Z [0; 0]) (hread 0%Z file (cells_of file)).

  (** reading .csv and .ppm files *)
  Variable csv_open ppm_open : nat -> list Z -> res value * nat.

  (** main.h:3503-3535  one directory entry; None: nothing is stored *)
  Definition typed {A} (mk : image A -> value) (r : res (image A) * nat) : option (res value * nat) :=
    Some ((let* im := fst r in Ok (mk im)), snd r).
  Definition load_entry (avail : nat) (e : str * list Z) : option (res value * nat) :=
    let ext := snd (stem_extension (fst e)) in
    if eqs ext ".bmp"%string then typed Rgb (bmp_open avail (snd e))
    else if eqs ext ".dbmp"%string then typed Dbl (double_open avail (snd e))
    else if eqs ext ".hsv"%string then typed Hsv (hsv_open avail (snd e))
    else if eqs ext ".csv"%string then Some (csv_open avail (snd e))
    else if eqs ext ".ppm"%string then Some (ppm_open avail (snd e))
    else None.
  (** 3499-3537  the entries come in an unspecified order; the workspace at the end or when an exception is thrown, and the
      number of files that may still be opened *)
  Fixpoint load_entries (entries : list (str * list Z)) (avail : nat) (w : ws) : ws * nat * res unit :=
    match entries with
    | [] => (w, avail, Ok tt)
    | e :: r =>
        match load_entry avail e with
        | None => load_entries r avail w
        | Some (Ok v, avail) => load_entries r avail (ws_store value (fst (stem_extension (fst e))) (item v) w)
        | Some (Throw x, avail) => (w, avail, Throw x)
        | Some (UB, avail) => (w, avail, UB)
        end
    end.
End Bundle.
