(** BmpModel.v - image_io.cpp: BMP, .dbmp and .hsv files.

    A file is its list of bytes (integers in [0, 256)).  Pixels are lists of three channels (R, G, B).
    [alloc n] says whether malloc of n bytes succeeds.  Printing and the "press any key" prompts are left out. *)
From Verif Require Import Base ImageModel.
Open Scope nat_scope.

Definition u32 (z : Z) : Z := (z mod 2 ^ 32)%Z.
(** conversion to int *)
Definition s32 (z : Z) : Z := let u := u32 z in if (u <? 2 ^ 31)%Z then u else (u - 2 ^ 32)%Z.

(** image_io.cpp:392-397  bmp_filling_byte_calc *)
Definition filling (m xs : nat) : nat := xs mod m.

(** header[k] + (header[k+1] << 8) + (header[k+2] << 16) + (header[k+3] << 24); reading a header byte the file
    does not have is reading an uninitialised array element (46-51, 77-82: the fread result is ignored) *)
Definition le32 (file : list Z) (k : nat) : res Z :=
  let* b0 := vget file k in let* b1 := vget file (k + 1) in
  let* b2 := vget file (k + 2) in let* b3 := vget file (k + 3) in
  Ok (b0 + b1 * 2 ^ 8 + b2 * 2 ^ 16 + b3 * 2 ^ 24)%Z.

(** fread at position [pos] into a buffer of [n] cells whose previous content is [buf] *)
Definition fread_at (file : list Z) (pos : nat) (n : nat) (buf : list Z) : list Z :=
  let got := firstn n (skipn pos file) in got ++ skipn (length got) buf.

(** image_io.cpp:8-23  raw_image_to_array; [None]: null pointer *)
Definition raw_image_to_array (xs ys : nat) (raw : option (list Z)) : res (image (list Z)) :=
  let f := filling 4 xs in
  for_list (grid ys xs) (fun p out =>
    let y := fst p in let x := snd p in
    for_range 3 (fun color out =>
      match raw with
      | None => UB
      | Some raw =>
          let* v := vget raw (3 * (y * xs + x) + y * f + (2 - color)) in
          let* px := at_ out [x; y] in
          let* px := vset px color v in
          at_set out [x; y] px
      end) out) (image_sizes [0; 0; 0]%Z [xs; ys]).

(** image_io.cpp:88-175  bmp_read_detail on a file and the caller's buffer *)
Definition bmp_read_detail (alloc : nat -> bool) (file : list Z) (xs ys : nat) (buf : list Z) : res (list Z) :=
  let f := filling 4 xs in
  let row := 3 * xs + f in
  if length file <? 54 then Ok buf
  else
    let* c0 := vget file 28 in let* c1 := vget file 29 in
    let bit_count := (c0 + c1 * 2 ^ 8)%Z in
    let* off := le32 file 10 in
    if (bit_count =? 24)%Z then Ok (fread_at file (Z.to_nat off) (row * ys) buf)
    else if (bit_count =? 8)%Z then
      let* header_size := le32 file 14 in
      let pstart := u32 (14 + header_size) in
      let psize := Z.min 1024 (s32 (off - pstart)) in
      let palette :=
        if (0 <? psize)%Z then fread_at file (Z.to_nat pstart) (Z.to_nat psize) (repeat 0%Z 1024)
        else repeat 0%Z 1024 in
      let padding := (4 - xs mod 4) mod 4 in
      if alloc (xs + padding) then
        for_range ys (fun y buf =>
          let row_buffer := fread_at file (Z.to_nat off + y * (xs + padding)) (xs + padding)
                              (repeat 0%Z (xs + padding)) in
          let* buf := for_range xs (fun x buf =>
            let* index := vget row_buffer x in
            let index := Z.to_nat index in
            for_range 3 (fun c buf =>
              let* v := vget palette (index * 4 + c) in
              vset buf (y * row + x * 3 + c) v) buf) buf in
          for_range f (fun p buf => vset buf (y * row + xs * 3 + p) 0%Z) buf) buf
      else Ok buf
    else Ok buf.

(** image_io.cpp:252-266  the copy loop for a negative height; the printed samples are read too *)
Definition flip_rows (xs ys : nat) (orig dest : list Z) : res (list Z) :=
  let f := filling 4 xs in
  for_list (grid ys xs) (fun p dest =>
    let y := fst p in let x := snd p in
    let* dest := for_range 3 (fun color dest =>
      let* v := vget orig (3 * ((ys - y - 1) * xs + x) + (ys - y - 1) * f + (2 - color)) in
      vset dest (3 * (y * xs + x) + y * f + (2 - color)) v) dest in
    let* _ := vget orig (3 * ((ys - y - 1) * xs + x) + 2) in
    let* _ := vget orig (3 * ((ys - y - 1) * xs + x) + 1) in
    let* _ := vget orig (3 * ((ys - y - 1) * xs + x)) in
    Ok dest) dest.

(** an unsigned int computed from non-negative integers *)
Definition wrap32 (k : nat) : nat := Z.to_nat (u32 (Z.of_nat k)).

(** ** Files whose header makes the 32-bit arithmetic of the reader wrap or overflow

    XSIZE and YSIZE are unsigned int (base_types.h:223-228), the parameters of the functions they are passed to are
    int: a width of the header is [X] as an int and [u32 X] as an unsigned int. *)

(** image_io.cpp:88-175  bmp_read_detail: [xsize] may be negative, the int expressions may overflow.  fread is asked for
    more bytes than the buffer has when xsize * 3 + filling_bytes is negative: undefined behaviour.  Line 143: the
    memory for one row; its indices (154-163) overflow int as soon as there is a row. *)
Definition bmp_read_detail_wide (alloc : nat -> bool) (file : list Z) (X : Z) (ys : nat) (buf : list Z) : res (list Z) :=
  let f := Z.of_nat (filling 4 (Z.to_nat (u32 X))) in
  if length file <? 54 then Ok buf
  else
    let* c0 := vget file 28 in let* c1 := vget file 29 in
    let bit_count := (c0 + c1 * 2 ^ 8)%Z in
    let* off := le32 file 10 in
    if (bit_count =? 24)%Z then
      if ((3 * X <? - 2 ^ 31) || (2 ^ 31 <=? 3 * X + f))%Z then UB
      else
        let n := Z.to_nat (((3 * X + f) * Z.of_nat ys) mod 2 ^ 64) in
        if length buf <? n then UB else Ok (fread_at file (Z.to_nat off) n buf)
    else if (bit_count =? 8)%Z then
      let padding := ((4 - Z.rem X 4) mod 4)%Z in
      if (2 ^ 31 <=? X + padding)%Z then UB
      else if alloc (Z.to_nat ((X + padding) mod 2 ^ 64)) then (if ys =? 0 then Ok buf else UB)
      else Ok buf
    else Ok buf.

(** image_io.cpp:252-266  the copy loop for a negative height with indices of type unsigned int *)
Definition flip_rows_wide (xs ys : nat) (orig dest : list Z) : res (list Z) :=
  let f := filling 4 xs in
  for_list (grid ys xs) (fun p dest =>
    let y := fst p in let x := snd p in
    let* dest := for_range 3 (fun color dest =>
      let* v := vget orig (wrap32 (3 * ((ys - y - 1) * xs + x) + (ys - y - 1) * f + (2 - color))) in
      vset dest (wrap32 (3 * (y * xs + x) + y * f + (2 - color))) v) dest in
    let* _ := vget orig (wrap32 (3 * ((ys - y - 1) * xs + x) + 2)) in
    let* _ := vget orig (wrap32 (3 * ((ys - y - 1) * xs + x) + 1)) in
    let* _ := vget orig (wrap32 (3 * ((ys - y - 1) * xs + x))) in
    Ok dest) dest.

(** image_io.cpp:8-23  raw_image_to_array with an int width: the constructor image.h:79-92 converts a negative one to
    size_t; the number of pixels modulo 2^64 is then above the maximum of std::vector (std::length_error, a logic_error)
    unless there is no row *)
Definition raw_image_to_array_wide (X : Z) (ys : nat) (raw : option (list Z)) : res (image (list Z)) :=
  if (X <? 0)%Z then
    if ys =? 0 then Ok (mkImage [Z.to_nat (X mod 2 ^ 64); 0] []) else Throw LogicError
  else raw_image_to_array (Z.to_nat X) ys raw.

(** image_io.cpp:178-297  the rest of bmp_read once the extents are known.  The loop that fills the buffer (241-244,
    279-282) has an int counter and an unsigned int bound: it overflows exactly when the bound is 2^31 or more; bytes
    beyond the bound keep the content of the fresh memory.  For a negative height and a negative width the loop of 256
    has an int counter and a bound of at least 2^31.  [junk n]: content of fresh memory. *)
Definition bmp_read_wide (alloc : nat -> bool) (junk : nat -> list Z) (file : list Z) (X Y : Z) : res (image (list Z)) :=
  let xu := Z.to_nat (u32 X) in
  let ys := Z.to_nat (Z.abs Y) in
  let n := wrap32 (3 * xu + filling 4 xu) * ys in
  if negb (alloc n) then raw_image_to_array_wide X ys None
  else if (2 ^ 31 <=? Z.of_nat (wrap32 n))%Z then UB
  else
    let* data := bmp_read_detail_wide alloc file X ys (repeat 255%Z (wrap32 n) ++ skipn (wrap32 n) (junk n)) in
    if (Y <? 0)%Z then
      if (X <? 0)%Z then UB
      else let* dest := flip_rows_wide xu ys data (junk n) in raw_image_to_array_wide X ys (Some dest)
    else raw_image_to_array_wide X ys (Some data).

(** image_io.cpp:178-297  bmp_file_read and bmp_read of an existing file.  std::abs(INT_MIN) (228) is undefined.  In the
    last branch no 32-bit expression wraps. *)
Definition bmp_read (alloc : nat -> bool) (junk : nat -> list Z) (file : list Z) : res (image (list Z)) :=
  let* X := le32 file 18 in
  let* Y := le32 file 22 in
  let X := s32 X in
  let Y := s32 Y in
  if ((X =? -1) || (Y =? -1))%Z then raw_image_to_array 0 0 None
  else if (Y =? - 2 ^ 31)%Z then UB
  else
    let xs := Z.to_nat X in
    let ys := Z.to_nat (Z.abs Y) in
    let n := (3 * xs + filling 4 xs) * ys in
    if ((X <? 0) || (2 ^ 31 <=? Z.of_nat (3 * xs + filling 4 xs)) || (2 ^ 31 <=? Z.of_nat n))%Z
    then bmp_read_wide alloc junk file X Y
    else if negb (alloc n) then raw_image_to_array xs ys None
    else
      let* data := bmp_read_detail alloc file xs ys (repeat 255%Z n) in
      if (Y <? 0)%Z then
        let* dest := flip_rows xs ys data (junk n) in raw_image_to_array xs ys (Some dest)
      else raw_image_to_array xs ys (Some data).

(** (value >> 8k) & 0xff *)
Definition byte (v : Z) (k : nat) : Z := ((v / 2 ^ (8 * Z.of_nat k)) mod 256)%Z.

(** image_io.cpp:318-341  the header *)
Definition bmp_header (fs xs ys : Z) : list Z :=
  [66; 77; byte fs 0; byte fs 1; byte fs 2; byte fs 3; 0; 0; 0; 0; 54; 0; 0; 0; 40; 0; 0; 0;
   byte xs 0; byte xs 1; byte xs 2; byte xs 3; byte ys 0; byte ys 1; byte ys 2; byte ys 3;
   1; 0; 24; 0; 0; 0; 0; 0; 0; 0; 0; 0; 0; 0; 0; 0; 0; 0; 0; 0; 0; 0; 0; 0; 0; 0; 0; 0]%Z.

(** image_io.cpp:354-390  array_to_raw_image; [junk] is the fresh buffer *)
Definition array_to_raw_image (junk : nat -> list Z) (im : image (list Z)) : res (list Z) :=
  let* xs := get_width im in
  let* ys := get_height im in
  let f := filling 4 xs in
  let row := 3 * xs + f in
  let* buf := for_list (grid ys row) (fun p buf => vset buf (fst p * row + snd p) 0%Z) (junk (row * ys)) in
  for_list (grid ys xs) (fun p buf =>
    let y := fst p in let x := snd p in
    for_range 3 (fun color buf =>
      let* px := at_ im [x; y] in
      let* v := vget px color in
      vset buf (3 * (y * xs + x) + y * f + (2 - color)) v) buf) buf.

(** image_io.cpp:299-352  bmp_write: the bytes of the file.  Extents whose row size or height does not fit in
    int are mapped to [UB] (overflow of int at 349). *)
Definition bmp_write (junk : nat -> list Z) (im : image (list Z)) : res (list Z) :=
  let* raw := array_to_raw_image junk im in
  let* xs := get_width im in
  let* ys := get_height im in
  let row := 3 * xs + filling 4 xs in
  if ((2 ^ 31 <=? Z.of_nat row) || (2 ^ 31 <=? Z.of_nat ys))%Z then UB
  else
    Ok (bmp_header (Z.of_nat xs * Z.of_nat ys * 3 + 54) (Z.of_nat xs) (Z.of_nat ys) ++ firstn (row * ys) raw).

(** ** files of doubles: 54 header bytes followed by cells of type [A] *)
Section DoubleFiles.
  Context {A : Type} (zero : A).

  (** image_io.cpp:402-424  array_to_raw_image(Image<double>) *)
  Definition darray_to_raw (junk : nat -> list A) (im : image A) : res (list A) :=
    let* xs := get_width im in
    let* ys := get_height im in
    let f := filling 8 xs in
    for_list (grid ys xs) (fun p buf =>
      let y := fst p in let x := snd p in
      let* v := at_ im [x; y] in
      vset buf (y * xs + x + y * f) v) (junk ((xs + f) * ys)).

  (** image_io.cpp:426-475  write: header and cells *)
  Definition dwrite (junk : nat -> list A) (im : image A) : res (list Z * list A) :=
    let* raw := darray_to_raw junk im in
    let* xs := get_width im in
    let* ys := get_height im in
    if ((2 ^ 31 <=? Z.of_nat (xs + 8)) || (2 ^ 31 <=? Z.of_nat ys))%Z then UB
    else Ok (bmp_header (Z.of_nat xs * Z.of_nat ys + 54) (Z.of_nat xs) (Z.of_nat ys),
             firstn ((xs + filling 8 xs) * ys) raw).

  (** image_io.cpp:477-527  read; cells beyond the end of the file stay uninitialised ([None]): reading one is
      [UB].  Products of int of 2^31 and more are mapped to [UB], as are negative extents. *)
  Definition dread (header : list Z) (cells : list A) : res (image A) :=
    let* X := le32 header 18 in
    let* Y := le32 header 22 in
    let X := s32 X in
    let Y := s32 Y in
    if ((X =? -1) || (Y =? -1))%Z then Ok (image_sizes zero [0; 0])
    else if ((X <? 0) || (Y <? 0) || (2 ^ 31 <=? X * Y) || (2 ^ 31 <=? (X + 8) * Y))%Z then UB
    else
      let xs := Z.to_nat X in
      let ys := Z.to_nat Y in
      let f := filling 8 xs in
      let buf := firstn ((xs + f) * ys) cells in
      for_list (grid ys xs) (fun p out =>
        let y := fst p in let x := snd p in
        let* v := vget buf (y * xs + x + y * f) in
        at_set out [x; y] v) (image_sizes zero [xs; ys]).

  (** image_io.cpp:529-552  array_to_raw_image(Image<HSV>) *)
  Definition harray_to_raw (junk : nat -> list A) (im : image (list A)) : res (list A) :=
    let* xs := get_width im in
    let* ys := get_height im in
    let f := filling 8 xs in
    for_list (grid ys xs) (fun p buf =>
      let y := fst p in let x := snd p in
      for_range 3 (fun c buf =>
        let* px := at_ im [x; y] in
        let* v := vget px c in
        vset buf (3 * (y * xs + x) + y * f + (2 - c)) v) buf) (junk ((3 * xs + f) * ys)).

  (** image_io.cpp:555-605  hsv_write *)
  Definition hwrite (junk : nat -> list A) (im : image (list A)) : res (list Z * list A) :=
    let* raw := harray_to_raw junk im in
    let* xs := get_width im in
    let* ys := get_height im in
    if ((2 ^ 31 <=? Z.of_nat (3 * xs + 8)) || (2 ^ 31 <=? Z.of_nat ys))%Z then UB
    else Ok (bmp_header (Z.of_nat xs * Z.of_nat ys * 3 + 54) (Z.of_nat xs) (Z.of_nat ys),
             firstn ((3 * xs + filling 8 xs) * ys) raw).

  (** image_io.cpp:608-657  hsv_read *)
  Definition hread (header : list Z) (cells : list A) : res (image (list A)) :=
    let* X := le32 header 18 in
    let* Y := le32 header 22 in
    let X := s32 X in
    let Y := s32 Y in
    if ((X =? -1) || (Y =? -1))%Z then Ok (image_sizes [zero; zero; zero] [0; 0])
    else if ((X <? 0) || (Y <? 0) || (2 ^ 31 <=? X * Y * 3) || (2 ^ 31 <=? (X * 3 + 8) * Y))%Z then UB
    else
      let xs := Z.to_nat X in
      let ys := Z.to_nat Y in
      let f := filling 8 xs in
      let buf := firstn ((3 * xs + f) * ys) cells in
      for_list (grid ys xs) (fun p out =>
        let y := fst p in let x := snd p in
        for_range 3 (fun c out =>
          let* v := vget buf (3 * (y * xs + x) + y * f + (2 - c)) in
          let* px := at_ out [x; y] in
          let* px := vset px c v in
          at_set out [x; y] px) out) (image_sizes [zero; zero; zero] [xs; ys]).
End DoubleFiles.
