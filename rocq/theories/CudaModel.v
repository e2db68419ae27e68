(** CudaModel.v - image_operations_cuda.cu and image_operations_cuda.h: warp_perspective_cuda on pictures of bytes (the two
    explicit instantiations, .cu 174-180) and of RGB pixels, and create_stitched_image_cuda.
    FloatingType is the rational numbers; fabsf (.cu 54, 154) passes a double through float, which is not modelled.  The
    device is: its allocated buffers, the answer of every call of the runtime, and the order in which the threads of a launch
    run.  A thread writes at most one element and reads none of what the others write, so threads are atomic here.  Unified
    addressing, streams and errors left over from earlier launches are not modelled. *)
From Coq Require Import QArith Qcanon Qround.
From Verif Require Import Base ImageModel PixelModel OField LinModel InterpModel HomModel.
Open Scope nat_scope.

(** int: arithmetic out of range is undefined *)
Definition i32 (z : Z) : res Z := if (- 2 ^ 31 <=? z)%Z && (z <? 2 ^ 31)%Z then Ok z else UB.
(** conversion to unsigned int and to int: modulo 2^32 *)
Definition u32 (z : Z) : Z := (z mod 2 ^ 32)%Z.
Definition s32 (z : Z) : Z := let m := u32 z in if (m <? 2 ^ 31)%Z then m else (m - 2 ^ 32)%Z.
(** reading and writing device memory *)
Definition mem_get (mem : list Z) (i : Z) : res Z := if (i <? 0)%Z then UB else vget mem (Z.to_nat i).
Definition mem_set (mem : list Z) (i v : Z) : res (list Z) := if (i <? 0)%Z then UB else vset mem (Z.to_nat i) v.
(** std::round: halves away from zero *)
Definition round_half (q : Q) : Z := if Qltb q 0 then (- Qfloor (- q + (1 # 2)))%Z else Qfloor (q + (1 # 2)).

(** .cu 51-67  cubic_kernel_device with the default a = -0.5 *)
Definition cubic_kernel_device (x : Q) : Q :=
  let a := (-1 # 2)%Q in
  let abs_x := if Qltb x 0 then (- x)%Q else x in
  let abs_x2 := (abs_x * abs_x)%Q in
  let abs_x3 := (abs_x2 * abs_x)%Q in
  if Qle_bool abs_x 1 then ((a + 2) * abs_x3 - (a + 3) * abs_x2 + 1)%Q
  else if Qltb abs_x 2 then (a * abs_x3 - 5 * a * abs_x2 + 8 * a * abs_x - 4 * a)%Q
  else 0%Q.

(** .cu 76-123  BicubicInterpolatorDevice on bytes *)
Definition interpolator_device (src_data : list Z) (src_width src_height : Z) (x y : Q) : res Z :=
  if Qltb x 1 || Qle_bool (inject_Z (src_width - 2)) x || Qltb y 1 || Qle_bool (inject_Z (src_height - 2)) y then
    let ix := Z.max 0 (Z.min (src_width - 1) (round_half x)) in
    let iy := Z.max 0 (Z.min (src_height - 1) (round_half y)) in
    let* r := i32 (iy * src_width)%Z in let* k := i32 (r + ix)%Z in mem_get src_data k
  else
    let x_floor := Qfloor x in
    let y_floor := Qfloor y in
    let* total := for_range 4 (fun j total =>
      let v := (y_floor - 1 + Z.of_nat j)%Z in
      let* row := for_range 4 (fun i row =>
        let u := (x_floor - 1 + Z.of_nat i)%Z in
        let* r := i32 (v * src_width)%Z in let* k := i32 (r + u)%Z in let* p := mem_get src_data k in
        Ok (row + inject_Z p * cubic_kernel_device (x - inject_Z u))%Q) 0%Q in
      Ok (total + row * cubic_kernel_device (y - inject_Z v))%Q) 0%Q in
    if Qltb 255 total then Ok 255%Z else if Qltb total 0 then Ok 0%Z else Ok (trunc total).

(** static_cast<FloatingType> of an int *)
Definition fint (z : Z) : Qc := Q2Qc (inject_Z z).

Section Kernel.
  Variable eps : Qc.                                                   (* 1e-6 *)

  (** .cu 149-167  one thread, at (x, y); [h] are the nine coefficients row by row *)
  Definition warp_thread (src_data : list Z) (src_width src_height out_width out_height : Z) (h : nat -> nat -> Qc)
    (x y : Z) (warped_data : list Z) : res (list Z) :=
    if (x <? out_width)%Z && (y <? out_height)%Z then
      let w := (h 2%nat 0%nat * fint x + h 2%nat 1%nat * fint y + h 2%nat 2%nat)%Qc in
      if @fltb Qcfield eps (@fabs Qcfield w) then
        let src_x := ((h 0%nat 0%nat * fint x + h 0%nat 1%nat * fint y + h 0%nat 2%nat) / w)%Qc in
        let src_y := ((h 1%nat 0%nat * fint x + h 1%nat 1%nat * fint y + h 1%nat 2%nat) / w)%Qc in
        if Qle_bool 0 src_x && Qltb src_x (inject_Z src_width) && Qle_bool 0 src_y && Qltb src_y (inject_Z src_height) then
          let* v := interpolator_device src_data src_width src_height src_x src_y in
          let* r := i32 (y * out_width)%Z in let* k := i32 (r + x)%Z in mem_set warped_data k v
        else Ok warped_data
      else Ok warped_data
    else Ok warped_data.

  (** a thread of a launch: its block and its place in the block *)
  Definition thread := (nat * nat * (nat * nat))%type.

  (** .cu 131-168  the kernel: the threads in the order [order] *)
  Definition warp_kernel (order : list thread) (src_data : list Z) (src_width src_height out_width out_height : Z)
    (h : nat -> nat -> Qc) (warped_data : list Z) : res (list Z) :=
    for_list order (fun t warped_data =>
      let '((block_x, block_y), (thread_x, thread_y)) := t in
      let x := s32 (Z.of_nat block_x * 16 + Z.of_nat thread_x)%Z in
      let y := s32 (Z.of_nat block_y * 16 + Z.of_nat thread_y)%Z in
      warp_thread src_data src_width src_height out_width out_height h x y warped_data) warped_data.

  (** the two buffers, and the calls of the runtime that warp_perspective_cuda makes *)
  Inductive buffer := Source | Warped.
  Inductive call := Malloc (b : buffer) | Copy_in | Memset | Launch | Synchronize | Copy_out | Free (b : buffer) | Free_in_catch (b : buffer).
  Definition buffer_eqb (a b : buffer) : bool := match a, b with Source, Source | Warped, Warped => true | _, _ => false end.

  (** the buffers that are allocated, those whose pointer in warp_perspective_cuda is not null, and those handed to cudaFree,
      the latest first *)
  Record device := mkDevice { live : list buffer; set_ : list buffer; freed : list buffer }.
  Definition holds_pointer (b : buffer) (d : device) : bool := existsb (buffer_eqb b) (set_ d).

  Section Host.
    (** [works c]: the call [c] answers cudaSuccess; [order gx gy]: the order of the threads of a launch of gx by gy blocks *)
    Variable works : call -> bool.
    Variable order : nat -> nat -> list thread.

    (** a step: the device before, the device after and the result *)
    Definition step (A : Type) := device -> device * res A.
    Definition pure {A} (r : res A) : step A := fun d => (d, r).
    Definition andthen {A B} (m : step A) (k : A -> step B) : step B := fun d =>
      match m d with
      | (d, Ok a) => k a d
      | (d, Throw e) => (d, Throw e)
      | (d, UB) => (d, UB)
      end.
    (** .cu 38-44  CUDA_CHECK *)
    Definition check (c : call) : step unit := pure (if works c then Ok tt else Throw RuntimeError).
    (** cudaMalloc; nothing is allocated, and the pointer is null, when the size is zero or the call fails *)
    Definition cuda_malloc (b : buffer) (bytes : nat) : step unit := fun d =>
      if works (Malloc b) then (if bytes =? 0 then d else mkDevice (b :: live d) (b :: set_ d) (freed d), Ok tt) else (d, Throw RuntimeError).
    (** cudaFree; a null pointer is accepted *)
    Definition cuda_free (c : call) (b : buffer) : step unit := fun d =>
      let log := if holds_pointer b d then b :: freed d else freed d in
      if works c then (mkDevice (filter (fun c => negb (buffer_eqb b c)) (live d)) (set_ d) log, Ok tt)
      else (mkDevice (live d) (set_ d) log, Throw RuntimeError).

    (** .cu 223-226  the number of blocks along an axis: std::size_t, converted to unsigned int *)
    Definition blocks (n : nat) : nat := Z.to_nat (u32 (w64 (Z.of_nat n + 15) / 16)).
    (** the sizes of grid that a launch accepts *)
    Definition launchable (gx gy : nat) : bool :=
      (0 <? gx) && (0 <? gy) && (Z.of_nat gx <=? 2 ^ 31 - 1)%Z && (Z.of_nat gy <=? 65535)%Z.

    Definition coefficients (H : matrix Qcfield) : res (nat -> nat -> Qc) :=
      let* a := mat_at H 0 0 in let* b := mat_at H 0 1 in let* c := mat_at H 0 2 in
      let* d := mat_at H 1 0 in let* e := mat_at H 1 1 in let* f := mat_at H 1 2 in
      let* g := mat_at H 2 0 in let* h := mat_at H 2 1 in let* i := mat_at H 2 2 in
      Ok (fun r k => nth k (nth r [[a; b; c]; [d; e; f]; [g; h; i]] []) (Q2Qc 0) : Qc).

    Notation "m >> k" := (andthen m (fun _ => k)) (at level 60, right associativity).

    (** .cu 221-239  the launch: its arguments are evaluated, then it is refused or the threads run on zeroed memory *)
    Definition launch (src : image Z) (H : matrix Qcfield) (out_width out_height warped_bytes : nat) : res (list Z) :=
      let gx := blocks out_width in
      let gy := blocks out_height in
      let* w := get_width src in let* h := get_height src in
      let* m := coefficients H in
      if negb (launchable gx gy) then Throw RuntimeError                (* reported by cudaGetLastError, 242 *)
      else
        warp_kernel (order gx gy) (pix src) (s32 (Z.of_nat w)) (s32 (Z.of_nat h)) (s32 (Z.of_nat out_width)) (s32 (Z.of_nat out_height))
          m (repeat 0%Z warped_bytes).

    (** .cu 211-254  the body of the try block *)
    Definition warp_try (src : image Z) (H : matrix Qcfield) (out_width out_height : nat) : step (image Z) :=
      let src_bytes := count src in
      let warped_bytes := Z.to_nat (w64 (Z.of_nat out_width * Z.of_nat out_height)) in
      cuda_malloc Source src_bytes >> cuda_malloc Warped warped_bytes >> check Copy_in >> check Memset >>
      andthen (pure (launch src H out_width out_height warped_bytes)) (fun warped_data =>
      check Launch >> check Synchronize >> check Copy_out >>
      cuda_free (Free Source) Source >> cuda_free (Free Warped) Warped >>
      pure (Ok (mkImage [out_width; out_height] warped_data))).

    (** .cu 256-269  the handler: both pointers are freed when they are not null, the answers are ignored *)
    Definition catch_free (b : buffer) (d : device) : device :=
      if holds_pointer b d then fst (cuda_free (Free_in_catch b) b d) else d.

    (** .cu 189-270  warp_perspective_cuda: the buffers of this call that are allocated afterwards, and the result *)
    Definition warp_perspective_cuda (src : image Z) (H : matrix Qcfield) (out_width out_height : nat) : device * res (image Z) :=
      match warp_try src H out_width out_height (mkDevice [] [] []) with
      | (d, Throw e) => (catch_free Warped (catch_free Source d), Throw e)
      | r => r
      end.
  End Host.

  (** .h 42-55  warp_perspective_cuda of RGB pixels: the three planes, each with its own calls and launches *)
  Definition warp_perspective_cuda_rgb (s : nat -> list nat) (works : nat -> call -> bool) (order : nat -> nat -> nat -> list thread)
    (src : image (list Z)) (H : matrix Qcfield) (out_width out_height : nat) : res (image (list Z)) :=
    let warp k := let* p := get_plane s 0%Z src k in
      snd (warp_perspective_cuda (works k) (order k) p H out_width out_height) in
    let* r := warp 0 in let* g := warp 1 in let* b := warp 2 in construct3 s rgb0 r g b.

  Variable inv_eps : Qcfield.
  Variable out_of_range : Qc -> res nat.

  (** .h 61-150  create_stitched_image_cuda *)
  Definition create_stitched_image_cuda s works order sg (img1 img2 : image (list Z)) (H_in : matrix Qcfield) : res (image (list Z)) :=
    if mat_empty H_in then Ok (mkImage [] [])
    else
      let* H := invert Qcfield inv_eps H_in in
      if mat_empty H then Ok (mkImage [] [])
      else
        let* w2 := get_width img2 in let* h2 := get_height img2 in
        let* w1 := get_width img1 in let* h1 := get_height img1 in
        let* bd := canvas_bounds out_of_range H w1 h1 w2 h2 in
        let '(min_x, max_x, min_y, max_y) := bd in
        let tx := (- min_x)%Qc in let ty := (- min_y)%Qc in
        let* ow := cast_size out_of_range (Q2Qc (inject_Z (Qceiling (this (max_x - min_x)%Qc)))) in
        let* oh := cast_size out_of_range (Q2Qc (inject_Z (Qceiling (this (max_y - min_y)%Qc)))) in
        let* H_trans := translation tx ty in
        let* H_final := multiply (@f0 Qcfield) fadd fmul H_trans H_in in
        let* warped := warp_perspective_cuda_rgb s works order img2 H_final ow oh in
        for_list (sg oh ow) (fun p out =>
          let '(y, x) := p in
          let* o := stitch_pixel out_of_range img1 warped w1 h1 tx ty x y in write_pixel out x y o) (image_sizes rgb0 [ow; oh]).
End Kernel.
