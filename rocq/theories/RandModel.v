(** RandModel.v - random pictures: image_operations.h 387-476 (rand, randi) and the command rand (main.cpp 427-558).

    A random engine is a state; a distribution applied to it gives a value and the next state of the engine (a distribution with a
    state of its own has it in there).  What the standard says of the values is a hypothesis of the theorems.  std::random_device
    gives an arbitrary state: [seed]. *)
From Coq Require Import Reals Ascii String.
From Verif Require Import Base ImageModel CliModel CommandModel CubeModel FrameModel.
Open Scope nat_scope.

Section Engine.
  Variable G : Type.

  (** the state after n calls *)
  Fixpoint advance {A} (draw : G -> A * G) (n : nat) (g : G) : G :=
    match n with O => g | S n => advance draw n (snd (draw g)) end.
  (** the number of calls that generate makes *)
  Definition calls (sizes : list nat) : nat := match reduce_int sizes 1%Z with Ok c => Z.to_nat c | _ => 0 end.
  (** generate with a callable that holds references to the engine: copies of the callable change the same engine *)
  Definition generate_ref {A} (draw : G -> A * G) (g : G) (sizes : list nat) : res (image A) * G :=
    (generate draw g sizes, advance draw (calls sizes) g).

  (** 387-398  rand(urbg, sizes...) with std::size_t *)
  Definition rand (draw : G -> R * G) (g : G) (sizes : list nat) : res (image R) * G := generate_ref draw g sizes.
  (** the extents are ints: 384 static_cast<std::size_t> *)
  Definition rand_ints (draw : G -> R * G) (g : G) (sizes : list Z) : res (image R) * G := rand draw g (map wn sizes).
  (** 409-416  rand(urbg): the vector of one value, 1 by 1 *)
  Definition rand1 (draw : G -> R * G) (g : G) : res (image R) * G :=
    let (v, g') := draw g in (image_data [v] [1; 1], g').
  (** 425-443  randi(urbg, {first, second}, sizes...).  std::uniform_int_distribution needs first <= second *)
  Definition randi (draw : Z -> Z -> G -> Z * G) (g : G) (first second : Z) (sizes : list nat) : res (image Z) * G :=
    if (second <? first)%Z then (UB, g)
    else generate_ref (draw first second) g (match sizes with [] => [1] | _ => sizes end).
  (** 455-468  randi(urbg, max) and randi(max, sizes...): from 1 *)
  Definition randi_max (draw : Z -> Z -> G -> Z * G) (g : G) (max : Z) (sizes : list nat) : res (image Z) * G := randi draw g 1 max sizes.
End Engine.

(** main.cpp:468-504  the names of the engines, std::map<std::string_view, ...> *)
Definition urbg_names : list str :=
  [lit "knuth_b"; lit "minstd_rand"; lit "minstd_rand0"; lit "mt19937"; lit "mt19937_64"; lit "ranlux24"; lit "ranlux24_base"; lit "ranlux48"; lit "ranlux48_base"].

Section Command.
  Variable V F G : Type.
  Variable save_file : F -> str -> any V -> option F.
  (** the state of the engine with that name after std::random_device, and std::uniform_real_distribution<double> applied to it *)
  Variable seed : str -> G.
  Variable draw : str -> G -> R * G.
  Variable of_image : image R -> any V.
  Notation st_t := (state V F).

  (** main.cpp:443-558  rand_generator: the sizes are read before the name is looked up *)
  Definition rand_command (args : list str) (st : st_t) : res st_t :=
    match args with
    | urbg :: output :: dim :: dims =>
        caught V F st
          (let* sizes := mapM parse_size (dim :: dims) in
           if existsb (eqs urbg) urbg_names then
             let* im := generate (draw urbg) (seed urbg) sizes in
             Ok (save V F save_file st output (of_image im))
           else Ok st)
    | _ => Ok st
    end.
End Command.
