(** TextModel.v - image_io.h: text formats (CSV and PNM).

    Characters are their codes (0..255).  Streams are the list of remaining characters. *)
From Coq Require Import Ascii String QArith.
From Verif Require Import Base ImageModel PixelModel.
Open Scope nat_scope.
Open Scope list_scope.

Notation text := (list nat).

Definition chars (s : string) : text := map nat_of_ascii (list_ascii_of_string s).

(** isspace in the classic locale *)
Definition is_space (c : nat) : bool := (c =? 32) || ((9 <=? c) && (c <=? 13)).
Definition is_digit (c : nat) : bool := (48 <=? c) && (c <=? 57).
Definition comma : nat := 44.
Definition newline : nat := 10.
Definition hash : nat := 35.
Definition minus : nat := 45.
Definition plus : nat := 43.

(** ** numbers *)
(** decimal digits of a natural number, most significant first *)
Fixpoint dec_fuel (fuel n : nat) : text :=
  match fuel with
  | O => []
  | S fuel' => if n <? 10 then [48 + n] else dec_fuel fuel' (n / 10) ++ [48 + n mod 10]
  end.
(** operator<< on an unsigned integer *)
Definition dec (n : nat) : text := dec_fuel (S n) n.
(** operator<< on a signed integer *)
Definition dec_z (z : Z) : text := if (z <? 0)%Z then minus :: dec (Z.to_nat (- z)) else dec (Z.to_nat z).

Fixpoint skip_spaces (s : text) : text :=
  match s with
  | c :: s' => if is_space c then skip_spaces s' else s
  | [] => []
  end.

(** the value of the leading digits (base 10), [None] if there are none *)
Fixpoint digits (acc : nat) (s : text) : nat :=
  match s with
  | c :: s' => if is_digit c then digits (acc * 10 + (c - 48)) s' else acc
  | [] => acc
  end.

(** strtol and friends: spaces, an optional sign, digits; trailing characters are ignored.
    Result: sign and magnitude, [None] without digits *)
Definition parse_number (s : text) : option (bool * nat) :=
  let s := skip_spaces s in
  let '(neg, s) := match s with
                   | c :: s' => if c =? minus then (true, s') else if c =? plus then (false, s') else (false, s)
                   | [] => (false, s)
                   end in
  match s with
  | c :: _ => if is_digit c then Some (neg, digits 0 s) else None
  | [] => None
  end.

(** std::stoull: a negative number is converted to unsigned *)
Definition stoull (s : text) : res nat :=
  match parse_number s with
  | None => Throw InvalidArgument
  | Some (neg, m) =>
      if (two64 <=? Z.of_nat m)%Z then Throw OutOfRange
      else Ok (if neg then wn (- Z.of_nat m) else m)
  end.

(** std::stoi *)
Definition stoi (s : text) : res Z :=
  match parse_number s with
  | None => Throw InvalidArgument
  | Some (neg, m) =>
      let z := if neg then (- Z.of_nat m)%Z else Z.of_nat m in
      if ((z <? - 2 ^ 31) || (2 ^ 31 <=? z))%Z then Throw OutOfRange else Ok z
  end.

(** istream >> int: 0 without digits, clamped when out of range *)
Definition extract_int (s : text) : Z :=
  match parse_number s with
  | None => 0%Z
  | Some (neg, m) =>
      let z := if neg then (- Z.of_nat m)%Z else Z.of_nat m in
      Z.max (- 2 ^ 31) (Z.min (2 ^ 31 - 1) z)
  end.

(** istream >> uint8_t: the next character that is not a space, value-initialised if there is none *)
Definition extract_u8 (s : text) : nat := match skip_spaces s with c :: _ => c | [] => 0 end.

(** operator<< on a double that holds an integer (default precision: six significant digits, %g).  Other doubles
    are not modelled. *)
Fixpoint strip_zeros (l : text) : text :=          (* of a reversed digit string *)
  match l with
  | c :: l' => if c =? 48 then strip_zeros l' else l
  | [] => []
  end.
Definition round_half_even (n m : nat) : nat :=
  let q := n / m in let r := n mod m in
  if 2 * r <? m then q else if m <? 2 * r then S q else if Nat.even q then q else S q.
Definition print_g_nat (n : nat) : text :=
  if (Z.of_nat n <? 10 ^ 6)%Z then dec n
  else
    let e := length (dec n) - 1 in
    let m := round_half_even n (10 ^ (e - 5)) in
    let '(ds, e) := if (Z.of_nat m =? 10 ^ 6)%Z then (dec (m / 10), S e) else (dec m, e) in
    let frac := rev (strip_zeros (rev (tl ds))) in
    firstn 1 ds ++ (match frac with [] => [] | _ => 46 :: frac end) ++ [101; plus] ++
    (if e <? 10 then 48 :: dec e else dec e).
Definition print_double (q : Q) : text :=
  let z := Qnum q in
  if (z <? 0)%Z then minus :: print_g_nat (Z.to_nat (- z)) else print_g_nat (Z.to_nat z).

Fixpoint drop_digits (s : text) : text :=
  match s with
  | c :: s' => if is_digit c then drop_digits s' else s
  | [] => []
  end.
(** std::stod on digits with an optional fraction and decimal exponent (no hexadecimal, inf or nan) *)
Definition stod (s : text) : res Q :=
  let s := skip_spaces s in
  let '(neg, s) := match s with
                   | c :: s' => if c =? minus then (true, s') else if c =? plus then (false, s') else (false, s)
                   | [] => (false, s)
                   end in
  let ip := digits 0 s in
  let r := drop_digits s in
  let '(m, f, r') := match r with
                     | c :: r1 => if c =? 46 then (digits ip r1, length r1 - length (drop_digits r1), drop_digits r1)
                                  else (ip, 0, r)
                     | [] => (ip, 0, r)
                     end in
  if length s - length r + f =? 0 then Throw InvalidArgument
  else
    let ex := match r' with
              | c :: r2 => if (c =? 101) || (c =? 69)
                           then match parse_number r2 with Some (true, k) => (- Z.of_nat k)%Z | Some (false, k) => Z.of_nat k | None => 0%Z end
                           else 0%Z
              | [] => 0%Z
              end in
    let z := if neg then (- Z.of_nat m)%Z else Z.of_nat m in
    let p := (ex - Z.of_nat f)%Z in
    Ok (if (0 <=? p)%Z then (z * 10 ^ p # 1)%Q else (z # Z.to_pos (10 ^ (- p)))%Q).

(** ** lines and cells *)
(** std::getline until the stream is exhausted: the pieces between separators; no piece after a final separator *)
Fixpoint getlines (sep : nat) (s : text) : list text :=
  match s with
  | [] => []
  | c :: s' =>
      if c =? sep then [] :: getlines sep s'
      else match getlines sep s' with
           | [] => [[c]]
           | l :: ls =>
               (* [c] belongs to the first piece of the rest, unless the rest started with a separator,
                  in which case that piece is the empty one before it *)
               (c :: l) :: ls
           end
  end.

Section Csv.
  Context {A : Type} (d : A).
  (** [print]: operator<<; [parse]: the conversion of a cell (image_io.h:181-191) *)
  Variables (print : A -> text) (parse : text -> res A).
  (** order of the parallel loop over the rows *)
  Variable s : nat -> list nat.

  (** image_io.h:77-93 and 129-145  the text of row y *)
  Definition csv_row (im : image A) (width y : nat) : res text :=
    for_range width (fun x out =>
      let* v := atu im [x; y] in
      let out := out ++ print v in
      Ok (if x <? width - 1 then out ++ [comma] else out)) [].

  (** image_io.h:51-103 and 107-154  write_to_csv (file contents) *)
  Definition write_to_csv (im : image A) : res text :=
    if negb (get_dimensionality im =? 2) then Throw RuntimeError
    else
      let* height := get_height im in
      let* width := get_width im in
      let* row_strings := fill s height [] (fun y => csv_row im width y) in
      for_range height (fun y out => let* r := vget row_strings y in Ok (out ++ r ++ [newline])) [].

  (** image_io.h:166-195  ParseCSVRow: the cells of row y, those beyond the width are ignored *)
  Fixpoint parse_cells (im : image A) (width y x : nat) (cells : list text) : res (image A) :=
    match cells with
    | [] => Ok im
    | cell :: cells' =>
        if x <? width then
          let* v := parse cell in
          let* im := atu_set im [x; y] v in
          parse_cells im width y (S x) cells'
        else Ok im
    end.

  (** image_io.h:200-247 and 253-300  read_from_csv *)
  Definition read_from_csv (file : text) : res (image A) :=
    let lines := filter (fun l => negb (length l =? 0)) (getlines newline file) in
    match lines with
    | [] => Ok image_default
    | first :: _ =>
        let height := length lines in
        let width := length (getlines comma first) in
        for_list (s height) (fun y im =>
          let* l := vget lines y in
          parse_cells im width y 0 (getlines comma l)) (image_sizes d [width; height])
    end.
End Csv.

(** ** PNM *)
Fixpoint take_token (s : text) : text * text :=
  match s with
  | [] => ([], [])
  | c :: s' => if is_space c then ([], s) else let '(t, r) := take_token s' in (c :: t, r)
  end.

(** file.ignore(max, '\n') *)
Fixpoint skip_line (s : text) : text :=
  match s with
  | [] => []
  | c :: s' => if c =? newline then s' else skip_line s'
  end.

(** image_io.h:309-330  read_pnm_token; the empty token at the end of the file.  The loop consumes at least one
    character per turn: [fuel] = length of the stream suffices (lemma read_token_step). *)
Fixpoint read_token_fuel (fuel : nat) (s : text) : text * text :=
  match fuel with
  | O => ([], [])
  | S fuel' =>
      let '(t, r) := take_token (skip_spaces s) in
      match t with
      | [] => ([], [])
      | c :: _ => if c =? hash then read_token_fuel fuel' (skip_line r) else (t, r)
      end
  end.
Definition read_token (s : text) : text * text := read_token_fuel (S (length s)) s.

(** image_io.h:336-346  shift_color_value; shifting an int by 32 or more is undefined *)
Definition shift_color_value (value shift : Z) : res Z :=
  if (32 <=? Z.abs shift)%Z then UB
  else if (0 <=? shift)%Z then Ok ((value * 2 ^ shift) mod 256)%Z
  else Ok ((value / 2 ^ (- shift)) mod 256)%Z.

Definition P1 : text := chars "P1".
Definition P2 : text := chars "P2".
Definition P3 : text := chars "P3".
Definition text_eqb (a b : text) : bool := if list_eq_dec Nat.eq_dec a b then true else false.

(** image_io.h:366-393  the pixel assembled from the samples *)
Definition ppm_pixel (raw : list Z) (magic : text) (shift : Z) (i : nat) : res (list Z) :=
  if text_eqb magic P1 then
    let* v := vget raw i in
    let val := if (v =? 0)%Z then 1%Z else 0%Z in Ok [val; val; val]
  else if text_eqb magic P2 then
    let* v := vget raw i in
    let* sv := shift_color_value v shift in Ok [sv; sv; sv]
  else if text_eqb magic P3 then
    let* r := vget raw (i * 3) in let* r := shift_color_value r shift in
    let* g := vget raw (i * 3 + 1) in let* g := shift_color_value g shift in
    let* b := vget raw (i * 3 + 2) in let* b := shift_color_value b shift in
    Ok [r; g; b]
  else Ok [0; 0; 0]%Z.

(** image_io.h:351-396  ProcessPPMData::operator() *)
Definition process_ppm (raw : list Z) (magic : text) (shift : Z) (width height : nat) (i : nat)
    (im : image (list Z)) : res (image (list Z)) :=
  if width =? 0 then UB                                  (* i % width *)
  else
    let x := i mod width in
    let y := i / width in
    let flipped_y := usub (usub height 1) y in
    let* pixel := ppm_pixel raw magic shift i in
    atu_set im [x; flipped_y] pixel.

(** image_io.h:455-465 and 511-521  the loop that reads the samples *)
Fixpoint read_samples (n : nat) (s : text) : res (list Z) :=
  match n with
  | O => Ok []
  | S n' =>
      let '(t, r) := read_token s in
      match t with
      | [] => Throw RuntimeError
      | _ => let* v := stoi t in let* vs := read_samples n' r in Ok (v :: vs)
      end
  end.

(** image_io.h:423-477 and 482-533  read.  [cap]: the largest vector that can be allocated (reserve and the image
    throw beyond).  log2 of an int is exact to the integer; a maximum of -1 or less makes it -inf or NaN, whose
    conversion to int is undefined, as is INT_MAX + 1.  The pixel count is a size_t product: it wraps, and so does
    the element count of the image constructed from the same extents. *)
Definition pnm_read (s : nat -> list nat) (cap : nat) (outbits : Z) (file : text) : res (image (list Z)) :=
  let '(magic, r) := read_token file in
  if negb (text_eqb magic P1 || text_eqb magic P2 || text_eqb magic P3) then Throw RuntimeError
  else
    let '(tw, r) := read_token r in let* width := stoull tw in
    let '(th, r) := read_token r in let* height := stoull th in
    let* mr := if text_eqb magic P1 then Ok (1%Z, r)
               else let '(tm, r) := read_token r in let* m := stoi tm in Ok (m, r) in
    let '(max_value, r) := mr in
    if ((max_value <=? -1) || (max_value =? 2 ^ 31 - 1))%Z then UB
    else
      let shift := (outbits - Z.log2 (max_value + 1))%Z in
      let pixel_count := wn (Z.of_nat width * Z.of_nat height) in
      let expected := if text_eqb magic P3 then wn (Z.of_nat pixel_count * 3) else pixel_count in
      if cap <? expected then Throw BadAlloc
      else
        let* raw := read_samples expected r in
        if cap <? pixel_count then Throw BadAlloc
        else
          for_list (s pixel_count) (process_ppm raw magic shift width height)
            (mkImage [width; height] (repeat [0; 0; 0]%Z pixel_count)).

(** image_io.h:541-598  write (file contents) *)
Definition pnm_pixel (magic : text) (px : list Z) : res text :=
  if text_eqb magic P1 then
    let* c := vget px 0 in Ok (dec_z (if (c =? 0)%Z then 1 else 0) ++ [newline])
  else if text_eqb magic P2 then
    let* c := vget px 0 in Ok (dec_z c ++ [newline])
  else if text_eqb magic P3 then
    let* r := vget px 0 in let* g := vget px 1 in let* b := vget px 2 in
    Ok (dec_z r ++ [32] ++ dec_z g ++ [32] ++ dec_z b ++ [newline])
  else Ok [].

Definition pnm_write (im : image (list Z)) (magic : text) (max_value : Z) : res text :=
  if negb (text_eqb magic P1 || text_eqb magic P2 || text_eqb magic P3) then Throw InvalidArgument
  else
    let* width := get_width im in
    let* height := get_height im in
    let header := magic ++ [newline] ++ dec width ++ [32] ++ dec height ++ [newline] ++
                  (if text_eqb magic P1 then [] else dec_z max_value ++ [newline]) in
    for_range height (fun y out => for_range width (fun x out =>
      let* px := atu im [x; usub (usub height 1) y] in
      let* t := pnm_pixel magic px in
      Ok (out ++ t)) out) header.
