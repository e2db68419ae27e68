(** CommandModel.v - the arguments of the commands that are numbers and file names, and the commands grid, constructRGB, subimage,
    zeros and ones, count, replace, multiply, sum (on containers), read and write (main.h, main.cpp).

    A command gives the state after it.  An exception is caught by CommandRegistry::execute (main.h:851-869) or by the command,
    and leaves the state as it was; [UB] is undefined behaviour or the end of the program (std::terminate).  What is printed is
    not modelled; memory is unlimited. *)
From Coq Require Import Ascii String QArith Qround.
From Verif Require Import Base ImageModel PixelModel HistModel CliModel.
Open Scope nat_scope.

(** ** main.h:75-117  parse_arg<T> for an integral T with the values lo..hi: std::from_chars in base ten, which stops at the first
    character that is not a digit; the place where it stopped is not looked at *)
Definition digit_of (c : ascii) : option Z :=
  let n := nat_of_ascii c in if (48 <=? n) && (n <=? 57) then Some (Z.of_nat n - 48)%Z else None.
Fixpoint scan (s : str) (acc : Z) : Z :=
  match s with
  | [] => acc
  | c :: r => match digit_of c with Some d => scan r (10 * acc + d)%Z | None => acc end
  end.
Definition has_digit (s : str) : bool :=
  match s with [] => false | c :: _ => match digit_of c with Some _ => true | None => false end end.
(** a minus sign is read for a signed type only; None: an error code *)
Definition from_chars (lo hi : Z) (s : str) : option Z :=
  let neg := (lo <? 0)%Z && starts_with "-"%string s in
  let body := if neg then tl s else s in
  if has_digit body then
    let v := if neg then (- scan body 0)%Z else scan body 0 in
    if (lo <=? v)%Z && (v <=? hi)%Z then Some v else None
  else None.
Definition parse_int (lo hi : Z) (s : str) : res Z :=
  match from_chars lo hi (sanitize s) with Some v => Ok v | None => Throw InvalidArgument end.
(** parse_arg<std::size_t> *)
Definition parse_size (s : str) : res nat := let* z := parse_int 0 (two64 - 1) s in Ok (Z.to_nat z).

(** ** the integral types: the number of bits and the sign; bool has one bit *)
Record ity := mkIty { bits : Z; signed : bool }.
Definition lowest (t : ity) : Z := if signed t then (- 2 ^ (bits t - 1))%Z else 0%Z.
Definition highest (t : ity) : Z := if signed t then (2 ^ (bits t - 1) - 1)%Z else (2 ^ bits t - 1)%Z.
Definition is_bool (t : ity) : bool := (bits t =? 1)%Z && negb (signed t).
Definition size_type : ity := mkIty 64 false.
(** conversion of a number to the type *)
Definition conv (t : ity) (v : Z) : Z :=
  if is_bool t then (if (v =? 0)%Z then 0 else 1)%Z
  else if signed t then ((v + 2 ^ (bits t - 1)) mod 2 ^ bits t - 2 ^ (bits t - 1))%Z
  else (v mod 2 ^ bits t)%Z.
(** integral promotion, and the type that == converts both sides to *)
Definition promote (t : ity) : ity := if (bits t <? 32)%Z then mkIty 32 true else t.
Definition common (a b : ity) : ity :=
  let a := promote a in let b := promote b in
  if Bool.eqb (signed a) (signed b) then (if (bits a <? bits b)%Z then b else a)
  else
    let u := if signed a then b else a in
    let s := if signed a then a else b in
    if (bits s <=? bits u)%Z then u else s.
Definition eq_mixed (a b : ity) (x y : Z) : bool := let c := common a b in (conv c x =? conv c y)%Z.
(** parse_arg<ElementT> *)
Definition parse_elem (t : ity) (s : str) : res Z :=
  if is_bool t then let* b := parse_bool s in Ok (if b then 1 else 0)%Z else parse_int (lowest t) (highest t) s.

(** ** loops over the pixels, in main.h:1963-2002, 2980-3043 and main.cpp:806-838: without a policy a double loop, and with one
    std::for_each over 0 .. width * height - 1, in the order [s].  An exception inside std::for_each ends the program *)
Definition terminate {A} (r : res A) : res A := match r with Throw _ => UB | _ => r end.
Definition paint {A} (pol : option (nat -> list nat)) (w h : nat) (f : nat -> nat -> res A) (out : image A) : res (image A) :=
  match pol with
  | None => for_list (grid h w) (fun p out => let* v := f (snd p) (fst p) in at_set out [snd p; fst p] v) out
  | Some s => terminate (for_list (s (wn (Z.of_nat (w * h)))) (fun i out => let* v := f (i mod w) (i / w) in at_set out [i mod w; i / w] v) out)
  end.
(** image.h:75-78  Image(width, height): the number of pixels is a std::size_t *)
Definition new_image {A} (d : A) (sizes : list nat) : image A := mkImage sizes (repeat d (wn (Z.of_nat (prodn sizes)))).

(** ** main.h:2976-3003  a pixel of the grid; % 0 is undefined *)
Definition grid_pixel (size x y : nat) : res (list Z) :=
  if size =? 0 then UB
  else Ok (if (x mod size =? 0) || (y mod size =? 0) then [0; 0; 0]%Z else [255; 255; 255]%Z).

(** ** main.h:1952-2002  constructRGB of three planes *)
Definition rgb_planes (pol : option (nat -> list nat)) (r g b : image Z) : res (image (list Z)) :=
  let* w := get_width r in let* h := get_height r in
  let* wg := get_width g in let* hg := get_height g in
  let* wb := get_width b in let* hb := get_height b in
  if negb (w =? wg) || negb (h =? hg) || negb (w =? wb) || negb (h =? hb) then Throw InvalidArgument
  else paint pol w h (fun x y =>
         let* p := at_ r [x; y] in let* q := at_ g [x; y] in let* s := at_ b [x; y] in Ok [u8 p; u8 q; u8 s])
         (new_image [0; 0; 0]%Z [w; h]).

(** ** main.cpp:800-840  subimage *)
Definition window {A} (d : A) (pol : option (nat -> list nat)) (xo yo sw sh : nat) (im : image A) : res (image A) :=
  let* w := get_width im in let* h := get_height im in
  if (w <? uadd xo sw) || (h <? uadd yo sh) then Throw OutOfRange
  else paint pol sw sh (fun x y => at_ im [uadd x xo; uadd y yo]) (new_image d [sw; sh]).

(** ** main.h:2268-2292  zeros and ones: the vector has [total_elements] values, and the constructor compares their number with
    the product of the extents; both products are std::size_t *)
Definition constant_image {A} (v : A) (sizes : list nat) : res (image A) :=
  let data := repeat v (wn (Z.of_nat (prodn sizes))) in
  match data with
  | [] => Throw RuntimeError
  | _ => if negb (length data =? wn (Z.of_nat (prodn sizes))) then Throw RuntimeError else Ok (mkImage sizes data)
  end.

(** ** main.h:2075-2112  count.  std::any holds a std::size_t for a container and, for an image, what std::count gives: a
    std::ptrdiff_t *)
Inductive counted := CDiff (n : nat) | CSize (n : nat).
Definition any_cast_size (c : counted) : res nat := match c with CSize n => Ok n | CDiff _ => Throw InvalidArgument end.
Definition order (pol : option (nat -> list nat)) : nat -> list nat := match pol with Some s => s | None => seq0 end.
Definition count_in (s : nat -> list nat) (eq : Z -> bool) (l : list Z) : res nat :=
  for_list (s (length l)) (fun i n => let* v := vget l i in Ok (if eq v then S n else n)) 0.

(** the values that the commands count and replace in: images and containers of integers *)
Inductive data := DImage (t : ity) (im : image Z) | DSeq (t : ity) (l : list Z).
Definition count_data (pol : option (nat -> list nat)) (v : data) (u : ity) (target : Z) : res nat :=
  let* c := match v with
            | DImage t im =>
                let* n := count_in (order pol) (match pol with Some _ => fun e => eq_mixed t u e target | None => fun e => (e =? conv t target)%Z end) (pix im) in
                Ok (CDiff n)
            | DSeq t l => let* n := count_in (order pol) (fun e => eq_mixed t u e target) l in Ok (CSize n)
            end in
  any_cast_size c.

(** ** main.h:4242-4288  replace.  For an image the two values become ElementT (image_operations.h:4388-4426); std::replace with a
    policy exists for a container when both are of one type *)
Definition same_ity (a b : ity) : bool := (bits a =? bits b)%Z && Bool.eqb (signed a) (signed b).
Definition replace_in (s : nat -> list nat) (eq : Z -> bool) (new_val : Z) (l : list Z) : res (list Z) :=
  for_list (s (length l)) (fun i r => let* v := vget r i in if eq v then vset r i new_val else Ok r) l.
Definition replace_data (pol : option (nat -> list nat)) (v : data) (u : ity) (target : Z) (u' : ity) (new_val : Z) : res data :=
  match v with
  | DImage t im =>
      let* p := replace_in (order pol) (fun e => (e =? conv t target)%Z) (conv t new_val) (pix im) in Ok (DImage t (mkImage (dims im) p))
  | DSeq t l =>
      match pol with
      | Some _ => if same_ity u u' then let* p := replace_in (order pol) (fun e => eq_mixed t u e target) (conv t new_val) l in Ok (DSeq t p)
                  else Throw InvalidArgument
      | None => let* p := replace_in (order pol) (fun e => eq_mixed t u e target) (conv t new_val) l in Ok (DSeq t p)
      end
  end.

(** ** main.h:3857-3871  multiply on the elements of a container.  The product of doubles is taken to be exact; numeric_limits
    max() of a type of more than 53 bits becomes the next power of two as a double *)
Definition max_double (t : ity) : Z := if (bits t <=? 53)%Z then highest t else (highest t + 1)%Z.
Definition qtrunc (q : Q) : Z := if Qle_bool 0 q then Qfloor q else Qceiling q.
Definition qclamp (q lo hi : Q) : Q := if negb (Qle_bool lo q) then lo else if negb (Qle_bool q hi) then hi else q.
Definition mult_elem (t : ity) (s : Q) (e : Z) : res Z :=
  let p := qclamp (inject_Z e * s) (inject_Z (lowest t)) (inject_Z (max_double t)) in
  if is_bool t then Ok (if Qeq_bool p 0 then 0 else 1)%Z
  else let z := qtrunc p in if (lowest t <=? z)%Z && (z <=? highest t)%Z then Ok z else UB.
(** recursive_transform over the elements, with or without a policy *)
Definition mult_seq (pol : option (nat -> list nat)) (t : ity) (s : Q) (l : list Z) : res (list Z) :=
  match pol with
  | None => mapM (mult_elem t s) l
  | Some sc => fill sc (length l) 0%Z (fun i => let* e := vget l i in mult_elem t s e)
  end.

(** ** main.h:4681-4712  sum of a container: std::accumulate from ValT{}, or std::reduce with a policy.  ValT is smaller than int:
    the sum is converted; otherwise a sum beyond a signed type is undefined *)
Definition plus_elem (t : ity) (a b : res Z) : res Z :=
  let* x := a in let* y := b in
  let z := (x + y)%Z in
  if signed t && (32 <=? bits t)%Z then (if (lowest t <=? z)%Z && (z <=? highest t)%Z then Ok z else UB) else Ok (conv t z).
(** [red]: how std::reduce combines *)
Definition sum_seq (pol : option (list (res Z) -> res Z)) (t : ity) (l : list Z) : res Z :=
  match pol with
  | None => fold_left (plus_elem t) (map Ok l) (Ok 0%Z)
  | Some red => red (map Ok (0%Z :: l))
  end.

(** ** names of files: std::filesystem::path.  A path is taken apart at its last slash; two slashes together are one *)
Fixpoint split_last (c : ascii) (s : str) : option (str * str) :=
  match s with
  | [] => None
  | a :: r => match split_last c r with
              | Some (x, y) => Some (a :: x, y)
              | None => if Ascii.eqb a c then Some ([], r) else None
              end
  end.
(** the directory with its slash, and filename() *)
Definition split_dir (p : str) : str * str :=
  match split_last "/"%char p with Some (d, f) => (d ++ lit "/", f) | None => ([], p) end.
(** stem() and extension() of a filename *)
Definition split_ext (f : str) : str * str :=
  if eqs f "."%string || eqs f ".."%string then (f, [])
  else match split_last "."%char f with
       | Some (s, e) => match s with [] => (f, []) | _ => (s, "."%char :: e) end
       | None => (f, [])
       end.
Definition path_stem (p : str) : str := fst (split_ext (snd (split_dir p))).
Definition path_ext (p : str) : str := snd (split_ext (snd (split_dir p))).
(** output_filepath.parent_path() / output_filepath.stem() *)
Definition path_base (p : str) : str := fst (split_dir p) ++ path_stem p.
(** the extension in small letters *)
Definition small (s : str) : str := map (fun c => ascii_of_nat (to_lower c)) s.

Inductive kind := KRgb | KDouble | KHsv.
(** main.h:671-727  MetaImageIO::Saver: the file that is written, for a cleaned name (image_io.cpp:349, 457 and 585 add the
    extension) *)
Definition saved_as (k : kind) (p : str) : str :=
  let base := match path_ext p with [] => p | _ => path_base p end in
  let ext := small (path_ext p) in
  match k with
  | KDouble => if eqs ext ".csv"%string then p else base ++ lit ".dbmp"
  | KRgb => if eqs ext ".ppm"%string then p else base ++ lit ".bmp"
  | KHsv => base ++ lit ".hsv"
  end.
(** main.h:755-782 and 618-668  dispatch_data_operation and MetaImageIO::Loader: the kind of image and the file that is read
    (image_io.cpp:192-199, 483-490 and 611-618) *)
Definition read_from (p : str) : kind * str :=
  let has_ext := match path_ext p with [] => false | _ => true end in
  let ext := small (path_ext p) in
  if eqs ext ".dbmp"%string || eqs ext ".csv"%string then
    (KDouble, if eqs ext ".csv"%string then p else if has_ext then p else p ++ lit ".dbmp")
  else if eqs ext ".hsv"%string then (KHsv, if has_ext then p else p ++ lit ".hsv")
  else (KRgb, if eqs ext ".ppm"%string then p else if has_ext then p else p ++ lit ".bmp").

Section Commands.
  Variable V F : Type.
  Variable load_file : F -> str -> option (any V).
  Variable save_file : F -> str -> any V -> option F.
  (** the order in which std::for_each and the like run under a policy *)
  Variable sch : str -> nat -> list nat.
  Notation st_t := (state V F).

  Definition policy_of (p : str) : option (nat -> list nat) := if is_policy p then Some (sch p) else None.
  Definition caught (st : st_t) (r : res st_t) : res st_t := match r with Throw _ => Ok st | _ => r end.
  (** a failed load: an exception, or a message *)
  Definition need {A} (o : option A) : res A := match o with Some v => Ok v | None => Throw InvalidArgument end.
  Definition load (st : st_t) (a : str) : res (any V) := need (load_arg V F load_file st a).
  Definition save (st : st_t) (a : str) (v : any V) : st_t := save_arg V F save_file st a v.
  (** how an image of RGB pixels becomes a value *)
  Variable of_rgb : image (list Z) -> any V.

  (** main.h:2934-3049  grid *)
  Definition grid_command (args : list str) (st : st_t) : res st_t :=
    let '(policy, l) := scalar_args args in
    match l with
    | output :: wa :: ha :: rest =>
        caught st
          (let* w := parse_size wa in
           let* h := parse_size ha in
           let* size := match rest with [] => Ok 10 | a :: _ => parse_size a end in
           let* im := paint (policy_of policy) w h (grid_pixel size) (new_image [0; 0; 0]%Z [w; h]) in
           Ok (save st output (of_rgb im)))
    | _ => Ok st
    end.

  (** main.h:1896-2030  constructRGB; [as_plane]: the value is an Image<std::uint8_t> *)
  Definition construct_command (as_plane : any V -> option (image Z)) (args : list str) (st : st_t) : res st_t :=
    match args_filter args with
    | ra :: ga :: ba :: output :: _ =>
        caught st
          (let* r := load st ra in let* r := need (as_plane r) in
           let* g := load st ga in let* g := need (as_plane g) in
           let* b := load st ba in let* b := need (as_plane b) in
           let* im := rgb_planes (policy_of (extract_policy args)) r g b in
           Ok (save st output (of_rgb im)))
    | _ => Ok st
    end.

  (** main.h:1391-1476  MetaTransformHandler, see transform_handler of CliModel; here the processor may be undefined *)
  Definition transform_command (extra : nat) (setup : str -> list str -> res (any V -> res (any V))) (args : list str) (st : st_t) : res st_t :=
    match args_filter args with
    | input :: output :: rest =>
        if length rest <? extra then Ok st
        else caught st
               (let* core := setup (extract_policy args) rest in
                let* v := load st input in
                let* w := core v in
                Ok (save st output w))
    | _ => Ok st
    end.

  (** main.cpp:776-856  subimage; [as_image]: the value is an image; the result has its type ([like]) *)
  Definition subimage_command {A} (d : A) (as_image : any V -> option (image A)) (like : any V -> image A -> any V)
    : list str -> st_t -> res st_t :=
    transform_command 4 (fun policy rest =>
      let arg k := parse_size (nth k rest []) in
      let* xo := arg 0 in let* yo := arg 1 in let* sw := arg 2 in let* sh := arg 3 in
      Ok (fun v => let* im := need (as_image v) in let* o := window d (policy_of policy) xo yo sw sh im in Ok (like v o))).

  (** main.h:2242-2296  zeros and ones *)
  Definition create_command {A} (v : A) (of_image : image A -> any V) (args : list str) (st : st_t) : res st_t :=
    match args with
    | output :: dim :: dims =>
        caught st (let* sizes := mapM parse_size (dim :: dims) in let* im := constant_image v sizes in Ok (save st output (of_image im)))
    | _ => Ok st
    end.

  (** the values as data, as scalars, and back *)
  Variable as_data : any V -> option data.
  Variable of_data : data -> any V.
  Variable as_scalar : any V -> option (ity * Z).
  Variable of_scalar : ity * Z -> any V.
  Definition elem_type (v : data) : ity := match v with DImage t _ | DSeq t _ => t end.
  (** main.h:2144-2180, 4293-4360  a value: a variable that holds a scalar, or a number of the type of the elements *)
  Definition scalar_arg (t : ity) (st : st_t) (a : str) : res (ity * Z) :=
    if dollar a then let* v := need (map_find (sanitize (tl a)) (vars V F st)) in need (as_scalar v)
    else let* z := parse_elem t a in Ok (t, z).

  (** main.h:2033-2192  count *)
  Definition count_command (args : list str) (st : st_t) : res st_t :=
    match args_filter args with
    | input :: target :: rest =>
        caught st
          (let* v := load st input in
           let* v := need (as_data v) in
           let* (u, x) := scalar_arg (elem_type v) st target in
           let* n := count_data (policy_of (extract_policy args)) v u x in
           match rest with
           | output :: _ => if dollar output then Ok (mkState V F (ws_store V (tl output) (of_scalar (size_type, Z.of_nat n)) (vars V F st)) (files V F st)) else Ok st
           | [] => Ok st
           end)
    | _ => Ok st
    end.

  (** main.h:4187-4383  replace *)
  Definition replace_command (args : list str) (st : st_t) : res st_t :=
    match args_filter args with
    | input :: target :: new_val :: output :: _ =>
        caught st
          (let* v := load st input in
           let* v := need (as_data v) in
           let* (u, x) := scalar_arg (elem_type v) st target in
           let* (u', y) := scalar_arg (elem_type v) st new_val in
           let* o := replace_data (policy_of (extract_policy args)) v u x u' y in
           Ok (save st output (of_data o)))
    | _ => Ok st
    end.

  (** main.h:3832-3990  multiply, on a container of integers; [parse_double] is parse_arg<double> *)
  Definition multiply_command (parse_double : str -> res Q) : list str -> st_t -> res st_t :=
    transform_command 1 (fun policy rest =>
      let* s := parse_double (nth 0 rest []) in
      Ok (fun v => let* d := need (as_data v) in
                   match d with
                   | DSeq t l => let* l := mult_seq (policy_of policy) t s l in Ok (of_data (DSeq t l))
                   | DImage _ _ => Throw InvalidArgument       (* images: multiplies_scalar of PixelModel *)
                   end)).

  (** main.h:1238-1379 and 4641-4734  sum, on a container of integers; [red] is std::reduce under a policy *)
  Definition sum_command (red : str -> ity -> list (res Z) -> res Z) (args : list str) (st : st_t) : res st_t :=
    let '(policy, l) := scalar_args args in
    match l with
    | input :: rest =>
        caught st
          (let* v := load st input in
           let* d := need (as_data v) in
           match d with
           | DImage _ _ => Throw InvalidArgument               (* images: im_sum of ReduceModel *)
           | DSeq t l =>
               let* z := sum_seq (if is_policy policy then Some (red policy t) else None) t l in
               match rest with
               | output :: _ => if dollar output then Ok (mkState V F (ws_store V (tl output) (of_scalar (t, z)) (vars V F st)) (files V F st)) else Ok st
               | [] => Ok st
               end
           end)
    | [] => Ok st
    end.

  (** main.h:4112-4185  read; [is_img]: the value is of one of the types of images *)
  Definition read_command (is_img : any V -> bool) (args : list str) (st : st_t) : res st_t :=
    match args with
    | [] => Ok st
    | input :: rest =>
        let output := match rest with o :: _ => o | [] => "$"%char :: path_stem (sanitize input) end in
        if match rest with o :: _ => negb (dollar o) | [] => false end then Ok st
        else caught st (let* v := load st input in if is_img v then Ok (save st output v) else Ok st)
    end.

  (** main.cpp:1004-1046  write *)
  Definition write_command (is_img : any V -> bool) (args : list str) (st : st_t) : res st_t :=
    match args with
    | input :: output :: _ =>
        if negb (dollar input) then Ok st
        else caught st (let* v := load st input in if is_img v then Ok (save st output v) else Ok st)
    | _ => Ok st
    end.
End Commands.
