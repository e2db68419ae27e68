(** SessionModel.v - the command multiply on pictures (main.h:3832-3990), and a session with the commands that the optimiser knows.

    double is modelled by the real numbers, as in StageModel. *)
From Coq Require Import Ascii String Reals.
From Verif Require Import Base ImageModel GeomModel PixelModel OField JacobiModel SiftModel TurnModel GaussModel FourierModel LanczosModel
  BmpModel FrameModel CliModel CommandModel AngleModel StageModel.
Open Scope nat_scope.

(** main.h:3857-3871  mult_op on a number of an integral type: the product is a double, which is clamped and cut.  bool is not modelled *)
Definition mult_int (t : ity) (k : R) (z : Z) : res Z :=
  let v := (IZR z * k)%R in
  let hi := max_double t in
  let z := if rltb v (IZR (lowest t)) then lowest t else if rltb (IZR hi) v then hi else rtrunc v in
  if (lowest t <=? z)%Z && (z <=? highest t)%Z then Ok z else UB.
(** 3884-3890  without a policy: TinyDIP::multiplies (image_operations.h:3425-3497), which multiplies by an image of doubles, plane by
    plane for colours.  3938-3946  with a policy there is no multiplies, and pixelwise_transform (2057-2070) calls mult_op for each
    pixel: it throws for colours (3890-3894), inside std::transform with an execution policy, which ends the program *)
Definition pic_multiply (s : nat -> list nat) (pol : option (nat -> list nat)) (k : R) (p : rpic) : res rpic :=
  match pol, p with
  | None, GReal im => let* o := multiplies_scalar Rmult 0%R k im in Ok (GReal o)
  | None, GInt _ im => let* o := multiplies_scalar (fun z v => IZR z * v)%R 0%R k im in Ok (GReal o)
  | None, CReal im => let* o := apply_each3 s 0%R [] (multiplies_scalar Rmult 0%R k) im in Ok (CReal o)
  | None, CByte im => let* o := apply_each3 s 0%Z [] (multiplies_scalar (fun z v => IZR z * v)%R 0%R k) im in Ok (CReal o)
  | Some sc, GReal im => let* o := pixelwise1_policy sc 0%R (fun v => v * k)%R im in Ok (GReal o)
  | Some sc, GInt t im =>
      let* data := fill sc (length (pix im)) 0%Z (fun i => let* x := vget (pix im) i in mult_int t k x) in
      let* o := image_data data (dims im) in Ok (GInt t o)
  | Some sc, CReal im =>
      let* data := terminate (fill sc (length (pix im)) [] (fun _ => Throw InvalidArgument)) in
      let* o := image_data data (dims im) in Ok (CReal o)
  | Some sc, CByte im =>
      let* data := terminate (fill sc (length (pix im)) [] (fun _ => Throw InvalidArgument)) in
      let* o := image_data data (dims im) in Ok (CByte o)
  end.

Section Session.
  Variable V F : Type.
  Variable load_file : F -> str -> option (any V).
  Variable save_file : F -> str -> any V -> option F.
  Variable as_pic : any V -> option rpic.
  Variable of_pic : rpic -> any V.
  Variable parse_double : str -> res R.
  Variable sch : str -> nat -> list nat.
  Variable s : nat -> list nat.
  Variable sg : nat -> nat -> list (nat * nat).

  Definition multiply_pictures := pic_command V F load_file save_file as_pic of_pic 1 (fun policy rest =>
    let* k := parse_double (nth 0 rest []) in Ok (pic_multiply s (policy_of sch policy) k)).

  (** a command in the registry: the state after it.  Where the behaviour of the command is undefined, or it ends the program, the
      state after it means nothing *)
  Definition handler_of (c : list str -> state V F -> res (state V F)) : handler V F :=
    fun args st => match c args st with Ok st' => st' | _ => st end.
  (** main.cpp:1461-1670  the registry: the commands that the optimiser looks at, and others *)
  Definition session_registry (more : registry V F) : registry V F :=
    (lit "copy", (IndependentSchema, copy_handler V F)) ::
    (lit "dct2", (TransformerSchema, handler_of (dct2_command V F load_file save_file as_pic of_pic s sg))) ::
    (lit "idct2", (TransformerSchema, handler_of (idct2_command V F load_file save_file as_pic of_pic s sg))) ::
    (lit "multiply", (TransformerSchema, handler_of multiply_pictures)) :: more.
End Session.
