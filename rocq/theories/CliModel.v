(** CliModel.v - the command line of main.h and main.cpp: names, the workspace, the registry, the meta handlers, pipelines
    and the peephole optimiser.  Text is a list of characters. *)
From Coq Require Import Ascii String DecimalString.
From Verif Require Import Base.
Open Scope nat_scope.

Definition str := list ascii.
Definition lit (s : string) : str := list_ascii_of_string s.
Coercion lit : string >-> str.
Arguments lit !s /.

Fixpoint eqs (a b : str) : bool :=
  match a, b with
  | [], [] => true
  | c :: a, d :: b => Ascii.eqb c d && eqs a b
  | _, _ => false
  end.
(** operator< of std::string: characters as unsigned numbers *)
Fixpoint lts (a b : str) : bool :=
  match a, b with
  | _, [] => false
  | [], _ :: _ => true
  | c :: a, d :: b => (nat_of_ascii c <? nat_of_ascii d) || (Ascii.eqb c d && lts a b)
  end.
(** std::string_view::starts_with; [find(p) == 0] *)
Fixpoint starts_with (p s : str) : bool :=
  match p, s with
  | [], _ => true
  | _, [] => false
  | c :: p, d :: s => Ascii.eqb c d && starts_with p s
  end.

(** ** main.h:48-62  sanitize_string_view *)
(** std::isspace in the C locale *)
Definition isspace (c : ascii) : bool := let n := nat_of_ascii c in ((9 <=? n) && (n <=? 13)) || (n =? 32).
Definition is_junk (c : ascii) : bool :=
  let n := nat_of_ascii c in isspace c || (n =? 13) || (n =? 10) || (n =? 34) || (n =? 39).
(** while (!sv.empty() && is_junk(sv.front())) sv.remove_prefix(1) *)
Fixpoint strip_front (s : str) : str :=
  match s with
  | [] => []
  | c :: r => if is_junk c then strip_front r else s
  end.
(** while (!sv.empty() && is_junk(sv.back())) sv.remove_suffix(1) *)
Definition strip_back (s : str) : str := rev (strip_front (rev s)).
Definition sanitize (s : str) : str := strip_front (strip_back s).

(** ** main.h:64-73  iequals *)
Definition to_lower (c : ascii) : nat := let n := nat_of_ascii c in if (65 <=? n) && (n <=? 90) then n + 32 else n.
Fixpoint iequals (a b : str) : bool :=
  match a, b with
  | [], [] => true
  | c :: a, d :: b => (to_lower c =? to_lower d) && iequals a b
  | _, _ => false
  end.
(** main.h:75-92  parse_arg<bool> *)
Definition parse_bool (s : str) : res bool :=
  let c := sanitize s in
  if eqs c "1"%string || iequals c "true"%string then Ok true
  else if eqs c "0"%string || iequals c "false"%string then Ok false
  else Throw InvalidArgument.

(** ** main.h:365-437  Workspace *)
(** std::map<std::string, ...>: a list sorted by key *)
Section Map.
  Context {A : Type}.
  Fixpoint map_find (k : str) (m : list (str * A)) : option A :=
    match m with [] => None | (k', v) :: m => if eqs k k' then Some v else map_find k m end.
  (** memory_store[k] = v *)
  Fixpoint map_set (k : str) (v : A) (m : list (str * A)) : list (str * A) :=
    match m with
    | [] => [(k, v)]
    | (k', v') :: r => if eqs k k' then (k, v) :: r else if lts k k' then (k, v) :: m else (k', v') :: map_set k v r
    end.
  Definition map_erase (k : str) (m : list (str * A)) : list (str * A) := filter (fun e => negb (eqs k (fst e))) m.
  (** emplace: nothing happens when the key is there *)
  Definition map_emplace (k : str) (v : A) (m : list (str * A)) : list (str * A) :=
    match map_find k m with Some _ => m | None => map_set k v m end.
End Map.

Section Workspace.
  (** std::any: the number of its type, and its value *)
  Variable V : Type.
  Definition any := (nat * V)%type.
  Definition workspace := list (str * any).

  (** 372-377 *)
  Definition ws_store (name : str) (item : any) (w : workspace) : workspace := map_set (sanitize name) item w.
  (** 379-391; None is the null pointer *)
  Definition ws_retrieve (T : nat) (name : str) (w : workspace) : option V :=
    match map_find (sanitize name) w with
    | Some (t, v) => if t =? T then Some v else None
    | None => None
    end.
  (** 393-402 *)
  Definition ws_retrieve_any (name : str) (w : workspace) : option any := map_find (sanitize name) w.
  (** 404-415 *)
  Definition ws_remove (name : str) (w : workspace) : bool * workspace :=
    let key := sanitize name in
    match map_find key w with Some _ => (true, map_erase key w) | None => (false, w) end.
  (** 417-430  the value is moved to the new key, then the old element is erased; moving a std::any to itself does nothing *)
  Definition ws_rename (old_name new_name : str) (w : workspace) : bool * workspace :=
    let old_key := sanitize old_name in
    match map_find old_key w with
    | Some v => (true, map_erase old_key (map_set (sanitize new_name) v w))
    | None => (false, w)
    end.
  (** 432-437 *)
  Definition ws_clear (w : workspace) : workspace := [].
End Workspace.

(** ** policy words *)
Definition policies : list str := [lit "seq"; lit "par"; lit "par_unseq"; lit "unseq"].
(** main.h:885-893  match_any *)
Definition is_policy (a : str) : bool := existsb (fun p => eqs p a) policies.
(** 1177-1195 *)
Fixpoint extract_policy (args : list str) : str :=
  match args with [] => [] | a :: r => if is_policy a then a else extract_policy r end.
(** 1197-1232 *)
Definition args_filter (args : list str) : list str := filter (fun a => negb (is_policy a)) args.
(** 1258-1275  the loop of MetaScalarHandler: the last policy word and the other arguments *)
Definition scalar_args (args : list str) : str * list str :=
  fold_left (fun st a => if is_policy a then (a, snd st) else (fst st, snd st ++ [a])) args ([], []).

(** ** main.h:789-870  IOSchema, CommandRegistry *)
Record schema := mkSchema { in_idx : Z; out_idx : Z }.
Definition GeneratorSchema := mkSchema (-1) 1.
Definition TerminatorSchema := mkSchema 0 (-1).
Definition TransformerSchema := mkSchema 0 1.
Definition CombinerSchema := mkSchema 0 2.
Definition IndependentSchema := mkSchema (-1) (-1).

Section Cli.
  Variable V : Type.
  (** the file system; reading and writing an image file, None when that throws *)
  Variable F : Type.
  Variable load_file : F -> str -> option (any V).
  Variable save_file : F -> str -> any V -> option F.

  Record state := mkState { vars : workspace V; files : F }.
  (** CommandHandler; the state when the handler has returned or thrown.  Console output is not modelled. *)
  Definition handler := list str -> state -> state.
  Definition registry := list (str * (schema * handler)).

  (** 819-828 *)
  Definition register_command (name : str) (sc : schema) (h : handler) (r : registry) : registry := map_emplace name (sc, h) r.
  (** 830-837 *)
  Definition get_schema (r : registry) (name : str) : option schema := option_map fst (map_find name r).
  (** 851-869  an exception is caught *)
  Definition execute (r : registry) (name : str) (args : list str) (st : state) : state :=
    match map_find name r with Some (_, h) => h args st | None => st end.

  (** 613-783  MetaImageIO::Loader called by dispatch_data_operation, and MetaImageIO::Saver; None: an exception.  An argument
      that is not a variable is cleaned before the loader sees it, so ["$x"] in quotes is taken for the variable x, and has to
      be an image of RGB pixels *)
  Definition rgb_image := 0.
  Definition dollar (a : str) : bool := starts_with "$"%string a.
  Definition load_arg (st : state) (a : str) : option (any V) :=
    if dollar a then map_find (sanitize (tl a)) (vars st)
    else
      let c := sanitize a in
      if dollar c then
        match map_find (sanitize (tl c)) (vars st) with
        | Some (t, v) => if t =? rgb_image then Some (t, v) else None
        | None => None
        end
      else load_file (files st) c.
  Definition save_arg (st : state) (a : str) (v : any V) : state :=
    if dollar a then mkState (ws_store V (tl a) v (vars st)) (files st)
    else match save_file (files st) (sanitize a) v with Some f => mkState (vars st) f | None => st end.

  (** 1391-1476  MetaTransformHandler with MinArgs = 2 + [extra] (2, 3 and 4 occur).  [setup] reads the arguments after the
      second and gives the processor; None stands for an exception, or a type that is not in the list of types *)
  Definition transform_handler (extra : nat) (setup : str -> list str -> option (any V -> option (any V))) : handler :=
    fun args st =>
      let policy := extract_policy args in
      match args_filter args with
      | input :: output :: rest =>
          if length rest <? extra then st
          else
            match setup policy rest with
            | None => st
            | Some core =>
                match load_arg st input with
                | None => st
                | Some v => match core v with Some w => save_arg st output w | None => st end
                end
            end
      | _ => st
      end.

  (** 1238-1379  MetaScalarHandler with MinArgs = 1 + [extra]; a result without an output argument is printed *)
  Definition scalar_handler (extra : nat) (setup : str -> list str -> option (any V -> option (any V))) : handler :=
    fun args st =>
      let '(policy, filtered) := scalar_args args in
      match filtered with
      | input :: rest =>
          if length rest <? extra then st
          else
            match setup policy (tl rest) with
            | None => st
            | Some core =>
                match load_arg st input with
                | None => st
                | Some v =>
                    match core v, rest with
                    | Some w, output :: _ => if dollar output then mkState (ws_store V (tl output) w (vars st)) (files st) else st
                    | _, _ => st
                    end
                end
            end
      | [] => st
      end.

  (** 2406-2441  copy *)
  Definition copy_handler : handler :=
    fun args st =>
      match args with
      | src :: dst :: _ =>
          if negb (dollar src) || negb (dollar dst) then st
          else
            match ws_retrieve_any V (tl src) (vars st) with
            | Some v => mkState (ws_store V (tl dst) v (vars st)) (files st)
            | None => st
            end
      | _ => st
      end.

  (** 2242-2296  create_image_with_initial_value, which zeros and ones call; [parse] is parse_arg<std::size_t>, [make] makes the
      image, None for an exception *)
  Fixpoint parse_all (parse : str -> option nat) (l : list str) : option (list nat) :=
    match l with
    | [] => Some []
    | a :: l => match parse a, parse_all parse l with Some n, Some r => Some (n :: r) | _, _ => None end
    end.
  Definition create_handler (parse : str -> option nat) (make : list nat -> option (any V)) : handler :=
    fun args st =>
      match args with
      | output :: _ :: _ =>
          match parse_all parse (tl args) with
          | Some sizes => match make sizes with Some v => save_arg st output v | None => st end
          | None => st
          end
      | _ => st
      end.

  (** ** main.h:872-1131  the peephole optimiser *)
  Definition command := (str * list str)%type.
  Variable reg : registry.
  (** sanitize_string_view and std::from_chars give the double 1.0 *)
  Variable is_one : str -> bool.

  (** the argument at a logical index: policy words are not counted; [] when there is none *)
  Fixpoint logical_arg (args : list str) (count : Z) (idx : Z) : str :=
    match args with
    | [] => []
    | a :: r => if is_policy a then logical_arg r count idx else if (count =? idx)%Z then a else logical_arg r (count + 1)%Z idx
    end.
  Definition is_copy (c : command) : bool := eqs (fst c) "copy"%string && (2 <=? length (snd c)).
  (** 936-976  get_io *)
  Definition get_io (c : command) : str * str :=
    if is_copy c then (nth 0 (snd c) [], nth 1 (snd c) [])
    else
      match get_schema reg (fst c) with
      | Some sc =>
          if negb (in_idx sc =? -1)%Z && negb (out_idx sc =? -1)%Z then
            match logical_arg (snd c) 0 (in_idx sc), logical_arg (snd c) 0 (out_idx sc) with
            | (_ :: _) as i, (_ :: _) as o => (i, o)
            | _, _ => ([], [])
            end
          else ([], [])
      | None => ([], [])
      end.
  (** 978-997  update_arg_by_schema; None: false *)
  Fixpoint update_arg (args : list str) (count idx : Z) (v : str) : option (list str) :=
    match args with
    | [] => None
    | a :: r =>
        if is_policy a then option_map (cons a) (update_arg r count idx v)
        else if (count =? idx)%Z then Some (v :: r)
        else option_map (cons a) (update_arg r (count + 1)%Z idx v)
    end.
  (** 999-1013, 1015-1029  update_in and update_out; None: false, the command is as it was *)
  Definition update_in (c : command) (v : str) : option command :=
    if is_copy c then Some (fst c, list_upd 0 v (snd c))
    else
      match get_schema reg (fst c) with
      | Some sc => if negb (in_idx sc =? -1)%Z then option_map (pair (fst c)) (update_arg (snd c) 0 (in_idx sc) v) else None
      | None => None
      end.
  Definition update_out (c : command) (v : str) : option command :=
    if is_copy c then Some (fst c, list_upd 1 v (snd c))
    else
      match get_schema reg (fst c) with
      | Some sc => if negb (out_idx sc =? -1)%Z then option_map (pair (fst c)) (update_arg (snd c) 0 (out_idx sc) v) else None
      | None => None
      end.

  (** 1045-1069  multiply by 1.0 becomes copy *)
  Definition rule_one (c : command) : command * bool :=
    if eqs (fst c) "multiply"%string && (3 <=? length (snd c)) && is_one (last (snd c) []) then
      let '(i, o) := get_io c in ((lit "copy", [i; o]), true)
    else (c, false).

  (** the two commands that cancel *)
  Definition inverse_pair (a b : str) : bool :=
    (eqs a "dct2"%string && eqs b "idct2"%string) || (eqs a "idct2"%string && eqs b "dct2"%string).
  Definition pipe_arg (a : str) : bool := starts_with "$__pipe_"%string a.

  (** 1031-1126  one pass; the current command is [cmd1], [rest] what follows *)
  Fixpoint pass (rest : list command) (cmd1 : command) {struct rest} : list command * bool :=
    let '(cmd1, ch) := rule_one cmd1 in
    match rest with
    | [] => ([cmd1], ch)
    | cmd2 :: rest' =>
        let '(in1, out1) := get_io cmd1 in
        let '(in2, out2) := get_io cmd2 in
        let continue := let '(l, ch') := pass rest' cmd2 in (cmd1 :: l, ch || ch') in
        if match out1 with [] => false | _ => true end && eqs out1 in2 then
          if inverse_pair (fst cmd1) (fst cmd2) then
            match rest' with
            | [] => ([(lit "copy", [in1; out2])], true)
            | c :: r => let '(l, _) := pass r c in ((lit "copy", [in1; out2]) :: l, true)
            end
          else
            match (if eqs (fst cmd1) "copy"%string && pipe_arg out1 then update_in cmd2 in1 else None) with
            | Some cmd2' => let '(l, _) := pass rest' cmd2' in (l, true)
            | None =>
                match (if eqs (fst cmd2) "copy"%string && pipe_arg in2 then update_out cmd1 out2 else None) with
                | Some cmd1' => let '(l, _) := pass rest' cmd1' in (l, true)
                | None => continue
                end
            end
        else continue
    end.
  Definition run_pass (l : list command) : list command * bool := match l with [] => ([], false) | c :: r => pass r c end.
  (** 900-1130  passes until nothing changes; [fuel] bounds the number of passes *)
  Fixpoint optimize (fuel : nat) (l : list command) : option (list command) :=
    match fuel with
    | O => None
    | S n => let '(l', ch) := run_pass l in if ch then optimize n l' else Some l'
    end.

  (** ** main.cpp:1178-1311  one line of the interactive mode *)
  (** std::getline with the delimiter '|' *)
  Fixpoint split_bar (s cur : str) : list str :=
    match s with
    | [] => match cur with [] => [] | _ => [cur] end
    | c :: r => if Ascii.eqb c "|"%char then cur :: split_bar r [] else split_bar r (cur ++ [c])
    end.
  (** operator>> into a std::string, repeated *)
  Fixpoint words (s cur : str) : list str :=
    match s with
    | [] => match cur with [] => [] | _ => [cur] end
    | c :: r => if isspace c then match cur with [] => words r [] | _ => cur :: words r [] end else words r (cur ++ [c])
    end.
  (** std::to_string *)
  Definition decimal (n : nat) : str := lit (NilZero.string_of_uint (Nat.to_uint n)).
  Definition pipe_var (i : nat) : str := lit "$__pipe_" ++ decimal i.

  (** args_str.insert(begin + min(idx, size), v) *)
  Definition insert_arg (args : list str) (idx : Z) (v : str) : list str :=
    let pos := Z.to_nat (Z.min idx (Z.of_nat (length args))) in firstn pos args ++ v :: skipn pos args.

  Inductive parsed := Exit | Skip | Run (l : list command).
  (** 1228-1297 *)
  Fixpoint build (segments : list (list str)) (i : nat) (prev final : str) (acc : list command) : parsed :=
    match segments with
    | [] => Run acc
    | [] :: _ => Skip
    | (name :: args) :: rest =>
        if eqs name "exit"%string || eqs name "quit"%string then Exit
        else
          match get_schema reg name with
          | None => Skip
          | Some sc =>
              let next := match rest with [] => final | _ => pipe_var i end in
              let args := if negb (in_idx sc =? -1)%Z && match prev with [] => false | _ => true end then insert_arg args (in_idx sc) prev else args in
              let args := if negb (out_idx sc =? -1)%Z && match next with [] => false | _ => true end then insert_arg args (out_idx sc) next else args in
              build rest (S i) next final (acc ++ [(name, args)])
          end
    end.

  (** 1216-1226  the last segment may name the output variable *)
  Definition split_final (segments : list (list str)) : list (list str) * str :=
    match rev segments with
    | [v] :: _ :: _ => if dollar v then (rev (tl (rev segments)), v) else (segments, [])
    | _ => (segments, [])
    end.

  Definition parse_line (line : str) : parsed :=
    let segments := filter (fun t => match t with [] => false | _ => true end) (map (fun s => words s []) (split_bar line [])) in
    match segments with
    | [] => Skip
    | _ => let '(segs, final) := split_final segments in build segs 0 [] final []
    end.

  (** 1301-1310 *)
  Definition run_pipeline (l : list command) (st : state) : state := fold_left (fun st c => execute reg (fst c) (snd c) st) l st.

  (** one line: None when the session ends.  The optimiser always stops after [length l + 1] passes and those for
      multiplications (see PropPipe), so the fuel is not a restriction *)
  Definition run_line (line : str) (st : state) : option state :=
    match parse_line line with
    | Exit => None
    | Skip => Some st
    | Run l => match optimize (2 * length l + 1) l with Some l' => Some (run_pipeline l' st) | None => None end
    end.
End Cli.

(** ** threads that share a workspace: main.h:365-437
    Every member function holds the mutex while it runs, so the threads interleave whole calls.  [retrieve] returns a pointer
    into the std::any of the map, and the caller reads through it later, without the mutex (main.h:618-630 does).  An object
    is known by a number; it ends when another value is assigned to its std::any, when that is moved from, and when its
    element is erased. *)
Section Shared.
  Variable V : Type.
  Inductive call :=
  | CStore (name : str) (item : any V)
  | CRemove (name : str)
  | CRename (old_name new_name : str)
  | CClear
  | CRetrieve (T : nat) (name : str)
  | CRead.
  Record shared := mkShared { cells : list (str * (nat * any V)); fresh_id : nat; pointers : nat -> option nat; seen : list (nat * res V) }.

  Definition value_at (id : nat) (m : list (str * (nat * any V))) : option V :=
    option_map (fun e => snd (snd (snd e))) (find (fun e => fst (snd e) =? id) m).

  (** thread [t] makes a call; what the reads give is collected in [seen], the latest first *)
  Definition call_step (t : nat) (c : call) (s : shared) : shared :=
    match c with
    | CStore name item => mkShared (map_set (sanitize name) (fresh_id s, item) (cells s)) (S (fresh_id s)) (pointers s) (seen s)
    | CRemove name => mkShared (map_erase (sanitize name) (cells s)) (fresh_id s) (pointers s) (seen s)
    | CRename old_name new_name =>
        match map_find (sanitize old_name) (cells s) with
        | Some (_, item) =>
            mkShared (map_erase (sanitize old_name) (map_set (sanitize new_name) (fresh_id s, item) (cells s))) (S (fresh_id s)) (pointers s) (seen s)
        | None => s
        end
    | CClear => mkShared [] (fresh_id s) (pointers s) (seen s)
    | CRetrieve T name =>
        let p := match map_find (sanitize name) (cells s) with
                 | Some (id, (t', _)) => if t' =? T then Some id else None
                 | None => None end in
        mkShared (cells s) (fresh_id s) (fun u => if u =? t then p else pointers s u) (seen s)
    | CRead =>
        match pointers s t with
        | None => s
        | Some id => mkShared (cells s) (fresh_id s) (pointers s) ((t, match value_at id (cells s) with Some v => Ok v | None => UB end) :: seen s)
        end
    end.
  Definition run_calls (l : list (nat * call)) (s : shared) : shared := fold_left (fun s e => call_step (fst e) (snd e) s) l s.
End Shared.
