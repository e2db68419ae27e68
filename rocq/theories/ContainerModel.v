(** ContainerModel.v - the commands that build and use containers of values: create_container, append_element, erase_element,
    get_element, transform_container (main.h), and the commands remove and rename (main.cpp). *)
From Coq Require Import Ascii String.
From Verif Require Import Base CliModel.
Open Scope nat_scope.

(** ** main.h:124-365  the types of the values.  A type is a number: a multiple of six is a type that is not a container, and the
    others are the std::vector, std::deque, std::list, std::array of three and std::array of four of the type that is the
    quotient.  The real lists are finite; here each of them goes on for ever *)
Inductive kind := KVector | KDeque | KList | KArray.
Definition shape_of (T : nat) : option (kind * nat) :=
  match T mod 6 with
  | 1 => Some (KVector, T / 6)
  | 2 => Some (KDeque, T / 6)
  | 3 => Some (KList, T / 6)
  | 4 | 5 => Some (KArray, T / 6)
  | _ => None
  end.
Definition vector_of (T : nat) : nat := 6 * T + 1.
(** the types that are no container: images (the first, the number zero, is Image<RGB>), the numbers of core_numeric_types, the
    other scalars, Gaussian parameters, and everything that is in none of the lists *)
Definition base (T c : nat) : bool := (T mod 6 =? 0) && ((T / 6) mod 5 =? c).
Definition is_image (T : nat) : bool := base T 0.
Definition is_number (T : nat) : bool := base T 1.
Definition is_gaussian (T : nat) : bool := base T 3.
Definition bool_type : nat := 6.
(** std::_Bit_reference, what a std::vector<bool> gives for an element *)
Definition bit_reference : nat := 24.

(** master_data_types: images, and the containers of numbers *)
Definition data_type (T : nat) : bool :=
  is_image T || match shape_of T with Some (_, E) => is_number E | None => false end.
(** master_image_container_types *)
Definition image_container (T : nat) : bool :=
  match shape_of T with Some (KArray, _) => false | Some (_, E) => is_image E | None => false end.
(** AllContainerTypes *)
Definition container_type (T : nat) : bool := data_type T || image_container T.
(** ReconstructibleTypes (4945) *)
Definition result_type (T : nat) : bool := data_type T || is_gaussian T.
(** the type of *it for an iterator of the container, decayed *)
Definition element_type (k : kind) (E : nat) : nat :=
  match k with KVector => if E =? bool_type then bit_reference else E | _ => E end.

(** a value: something that is no container, or the values in a container *)
Inductive payload (A : Type) := Atom (a : A) | Items (l : list (payload A)).
Arguments Atom {A}. Arguments Items {A}.
Definition items {A} (p : payload A) : list (payload A) := match p with Items l => l | Atom _ => [] end.

Section Containers.
  Variable A F : Type.
  Variable load_file : F -> str -> option (any (payload A)).
  Variable save_file : F -> str -> any (payload A) -> option F.
  (** parse_arg<std::size_t>; None: an exception *)
  Variable parse : str -> option nat.
  Notation V := (payload A).
  Notation any := (any V).
  Notation state := (state V F).
  Notation registry := (registry V F).

  Definition put (name : str) (v : any) (st : state) : state := mkState V F (ws_store V name v (vars V F st)) (files V F st).
  Definition del (name : str) (st : state) : state := mkState V F (snd (ws_remove V name (vars V F st))) (files V F st).

  (** dispatch_data_operation (main.h:730-783) for a list of types *)
  Definition load_listed (listed : nat -> bool) (st : state) (a : str) : option any :=
    match load_arg V F load_file st a with
    | Some (T, v) => if listed T then Some (T, v) else None
    | None => None
    end.

  (** main.h:2196-2241  create_container *)
  Definition create_container (args : list str) (st : state) : state :=
    match args with
    | input :: output :: _ =>
        if negb (dollar output) then st
        else
          match load_listed data_type st input with
          | Some (T, v) => put (tl output) (vector_of T, Items [v]) st
          | None => st
          end
    | _ => st
    end.

  (** main.h:1770-1842  append_element *)
  Definition append_element (args : list str) (st : state) : state :=
    match args with
    | input :: elem :: output :: _ =>
        if negb (dollar output) then st
        else
          match load_listed container_type st input with
          | None => st
          | Some (T, c) =>
              match shape_of T with
              | None | Some (KArray, _) => st
              | Some (_, E) =>
                  if negb (dollar elem) then st
                  else
                    match ws_retrieve V E (tl elem) (vars V F st) with
                    | Some e => put (tl output) (T, Items (items c ++ [e])) st
                    | None => st
                    end
              end
          end
    | _ => st
    end.

  (** main.h:2443-2510  erase_element *)
  Definition erase_element (args : list str) (st : state) : state :=
    match args with
    | input :: output :: index :: _ =>
        if negb (dollar output) then st
        else
          match parse index with
          | None => st
          | Some i =>
              match load_listed container_type st input with
              | None => st
              | Some (T, c) =>
                  match shape_of T with
                  | None | Some (KArray, _) => st
                  | Some _ =>
                      if length (items c) <=? i then st
                      else put (tl output) (T, Items (firstn i (items c) ++ skipn (S i) (items c))) st
                  end
              end
          end
    | _ => st
    end.

  (** main.h:2632-2697  get_element; an element of a std::vector<bool> is stored as a std::_Bit_reference, which refers to the
      copy of the container that is about to be destroyed (so its value must not be read; here it is the element) *)
  Definition get_element (args : list str) (st : state) : state :=
    match args with
    | input :: output :: index :: _ =>
        if negb (dollar output) then st
        else
          match parse index with
          | None => st
          | Some i =>
              match load_listed container_type st input with
              | None => st
              | Some (T, c) =>
                  match shape_of T with
                  | None => st
                  | Some (k, E) =>
                      match nth_error (items c) i with
                      | Some e => put (tl output) (element_type k E, e) st
                      | None => st
                      end
                  end
              end
          end
    | _ => st
    end.

  (** main.cpp:560-596  remove *)
  Definition remove_handler (args : list str) (st : state) : state :=
    match args with
    | [] => st
    | _ =>
        if match args with [a] => eqs a "all"%string | _ => false end then mkState V F (ws_clear V (vars V F st)) (files V F st)
        else fold_left (fun st a => if dollar a then del (tl a) st else st) args st
    end.
  (** main.cpp:598-632  rename *)
  Definition rename_handler (args : list str) (st : state) : state :=
    match args with
    | old :: new :: _ =>
        if negb (dollar old) || negb (dollar new) then st
        else mkState V F (snd (ws_rename V (tl old) (tl new) (vars V F st))) (files V F st)
    | _ => st
    end.

  (** ** main.h:4736-4966  transform_container *)
  (** std::terminate when an exception leaves the function object of a standard algorithm with an execution policy; not defined
      by the standard when the function object locks a mutex and the policy is unseq or par_unseq *)
  Inductive outcome := Done (st : state) | Terminated | Undefined.
  Definition tc_in (i : nat) : str := lit "__tc_in_" ++ decimal i.
  Definition tc_out (i : nat) : str := lit "__tc_out_" ++ decimal i.
  Definition as_var (n : str) : str := "$"%char :: n.
  (** 4808-4826  the arguments of the command *)
  Definition tc_args (policy : str) (sub : list str) (i : nat) : list str :=
    (match policy with [] => [] | _ => [policy] end) ++ [as_var (tc_in i); as_var (tc_out i)] ++ sub.
  (** 4801-4843  one element; None: an exception *)
  Definition tc_body (reg : registry) (policy cmd : str) (sub : list str) (i : nat) (x : any) (st : state) : state * option any :=
    let st := put (tc_in i) x st in
    let st := execute V F reg cmd (tc_args policy sub i) st in
    match ws_retrieve_any V (tc_out i) (vars V F st) with
    | None => (st, None)
    | Some r => (del (tc_out i) (del (tc_in i) st), Some r)
    end.
  (** 4796-4848 *)
  Fixpoint tc_loop (reg : registry) (policy cmd : str) (sub : list str) (i : nat) (xs : list any) (st : state) : state * option (list any) :=
    match xs with
    | [] => (st, Some [])
    | x :: xs =>
        let '(st, r) := tc_body reg policy cmd sub i x st in
        match r with
        | None => (st, None)
        | Some r =>
            let '(st, rs) := tc_loop reg policy cmd sub (S i) xs st in
            (st, option_map (cons r) rs)
        end
    end.
  (** output_arg.substr(1), which throws for an empty argument *)
  Definition put_output (output : str) (v : any) (st : state) : state :=
    match output with [] => st | _ :: name => put name v st end.
  (** 4913-4951  the vector of the results *)
  Definition tc_finish (output : str) (rs : list any) (st : state) : state :=
    match rs with
    | [] => st
    | (T, _) :: _ =>
        if result_type T then
          if forallb (fun r => fst r =? T) rs then put_output output (vector_of T, Items (map snd rs)) st else st
        else st
    end.
  (** with the policies par, unseq and par_unseq see [tc_par] below; here they are Undefined *)
  Definition transform_container (reg : registry) (args : list str) (st : state) : outcome :=
    let '(policy, filtered) := scalar_args args in
    match filtered with
    | input :: output :: cmd :: sub =>
        match load_listed container_type st input with
        | None => Done st
        | Some (T, c) =>
            match shape_of T with
            | None | Some (KArray, _) => Done st
            | Some (k, E) =>
                match items c with
                | [] => Done (put_output output (vector_of E, Items []) st)
                | l =>
                    match policy with
                    | [] =>
                        let '(st, rs) := tc_loop reg policy cmd sub 0 (map (pair (element_type k E)) l) st in
                        match rs with Some rs => Done (tc_finish output rs st) | None => Done st end
                    | _ =>
                        if eqs policy "seq"%string then
                          let '(st, rs) := tc_loop reg policy cmd sub 0 (map (pair (element_type KVector E)) l) st in
                          match rs with Some rs => Done (tc_finish output rs st) | None => Terminated end
                        else Undefined
                    end
                end
            end
        end
    | _ => Done st
    end.

  (** *** 4850-4901 with the policy par: one thread for each index; the accesses to the workspace are atomic (its mutex), and the
      threads take turns in any order.  The command is one of those of MetaTransformHandler, whose processor is [core]: it reads
      its input, computes and stores its output *)
  Record thread := mkThread { pc : nat; got : option any; result : option any }.
  Record gstate := mkG { gst : state; threads : list thread; dead : bool }.
  Definition fresh_thread : thread := mkThread 0 None None.
  Definition tc_step (core : any -> option any) (xs : list any) (i : nat) (g : gstate) : gstate :=
    if dead g then g
    else
      match nth_error xs i, nth_error (threads g) i with
      | Some x, Some t =>
          let go st t := mkG st (list_upd i t (threads g)) false in
          match pc t with
          | 0 => go (put (tc_in i) x (gst g)) (mkThread 1 None None)
          | 1 => go (gst g) (mkThread 2 (ws_retrieve_any V (tc_in i) (vars V F (gst g))) None)
          | 2 =>
              let st := match got t with
                        | Some v => match core v with Some w => put (tc_out i) w (gst g) | None => gst g end
                        | None => gst g
                        end in
              go st (mkThread 3 (got t) None)
          | 3 =>
              match ws_retrieve_any V (tc_out i) (vars V F (gst g)) with
              | Some r => go (gst g) (mkThread 4 (got t) (Some r))
              | None => mkG (gst g) (threads g) true
              end
          | 4 => go (del (tc_in i) (gst g)) (mkThread 5 (got t) (result t))
          | 5 => go (del (tc_out i) (gst g)) (mkThread 6 (got t) (result t))
          | _ => g
          end
      | _, _ => g
      end.
  Definition tc_start (xs : list any) (st : state) : gstate := mkG st (repeat fresh_thread (length xs)) false.
  Definition tc_par (core : any -> option any) (xs : list any) (order : list nat) (st : state) : gstate :=
    fold_left (fun g i => tc_step core xs i g) order (tc_start xs st).
End Containers.
