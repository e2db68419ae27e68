(** PluginModel.v - dynamic libraries: class DynamicLibrary (dynamic_loader.h), load_plugins and the order of destruction in main
    (main.cpp). *)
From Coq Require Import Ascii String.
From Verif Require Import Base CliModel.
Open Scope nat_scope.

(** ** the system: a library file is a number, and [w f] says how often it has been opened and not yet closed (dlopen counts) *)
Definition world := nat -> nat.
Definition w_open (f : nat) (w : world) : world := fun g => if g =? f then S (w g) else w g.
(** dlclose; closing what is not open is an error *)
Definition w_close (f : nat) (w : world) : res world :=
  if w f =? 0 then UB else Ok (fun g => if g =? f then w g - 1 else w g).

(** ** dynamic_loader.h:20-105  DynamicLibrary: its handle, None for the null pointer *)
Notation library := (option nat).
(** 23-43  constructor *)
Definition lib_new (openable : nat -> bool) (f : nat) (w : world) : res (library * world) :=
  if openable f then Ok (Some f, w_open f w) else Throw RuntimeError.
(** 45-55  destructor *)
Definition lib_destroy (l : library) (w : world) : res world := match l with Some f => w_close f w | None => Ok w end.
(** 62-65  move constructor: the new object and what is left *)
Definition lib_move (l : library) : library * library := (l, None).
(** 67-84  move assignment of different objects: the object, what is left of the other *)
Definition lib_assign (a b : library) (w : world) : res (library * library * world) :=
  let* w := lib_destroy a w in Ok (b, None, w).

(** *** programs with DynamicLibrary objects: places that hold an object or not *)
Inductive lib_op :=
| New (k f : nat)          (* construct an object at place k *)
| Move (k j : nat)         (* construct an object at place k from the one at j *)
| Assign (k j : nat)       (* move the object at j to the object at k *)
| Destroy (k : nat).       (* destroy the object at place k *)
Definition places := list (option library).
(** None: not a C++ program (no object at the place, or one already there) *)
Definition lib_exec (openable : nat -> bool) (op : lib_op) (p : places) (w : world) : option (res (places * world)) :=
  match op with
  | New k f =>
      match nth_error p k with
      | Some None =>
          Some (match lib_new openable f w with
                | Ok (l, w) => Ok (list_upd k (Some l) p, w)
                | Throw _ => Ok (p, w)     (* the exception is handled somewhere; there is no object *)
                | UB => UB
                end)
      | _ => None
      end
  | Move k j =>
      match nth_error p k, nth_error p j with
      | Some None, Some (Some l) => let '(a, b) := lib_move l in Some (Ok (list_upd j (Some b) (list_upd k (Some a) p), w))
      | _, _ => None
      end
  | Assign k j =>
      match nth_error p k, nth_error p j with
      | Some (Some a), Some (Some b) =>
          if k =? j then Some (Ok (p, w))
          else Some (let* (ab, w) := lib_assign a b w in Ok (list_upd j (Some (snd ab)) (list_upd k (Some (fst ab)) p), w))
      | _, _ => None
      end
  | Destroy k =>
      match nth_error p k with
      | Some (Some l) => Some (let* w := lib_destroy l w in Ok (list_upd k None p, w))
      | _ => None
      end
  end.
Fixpoint lib_run (openable : nat -> bool) (ops : list lib_op) (p : places) (w : world) : option (res (places * world)) :=
  match ops with
  | [] => Some (Ok (p, w))
  | op :: ops =>
      match lib_exec openable op p w with
      | Some (Ok (p, w)) => lib_run openable ops p w
      | r => r
      end
  end.

(** ** main.cpp:1391-1450  load_plugins *)
(** a file of the directory: whether its extension is that of a library, whether it has the function register_plugin_commands,
    the commands that the function registers, and whether it throws after that *)
Record entry := mkEntry { file : nat; is_library : bool; has_symbol : bool; commands : list str; throws : bool }.
(** the registry: for each command where its code is, None for the program itself *)
Definition owners := list (str * option nat).
Record session := mkSession { reg : owners; active : list library; open : world }.

(** std::vector<DynamicLibrary>::emplace_back(std::move(lib)): when there is no room left the objects are moved to a new place and the
    old ones destroyed *)
Fixpoint move_all (l : list library) (w : world) : res (list library * world) :=
  match l with
  | [] => Ok ([], w)
  | a :: l =>
      let '(b, rest) := lib_move a in
      let* w := lib_destroy rest w in
      let* (r, w) := move_all l w in
      Ok (b :: r, w)
  end.
Definition emplace_back (grow : nat -> bool) (v : list library) (lib : library) (w : world) : res (list library * library * world) :=
  let '(a, rest) := lib_move lib in
  if grow (length v) then let* (v, w) := move_all v w in Ok (v ++ [a], rest, w) else Ok (v ++ [a], rest, w).

(** 1411-1443  one file *)
Definition load_one (openable grow : nat -> bool) (e : entry) (s : session) : res session :=
  if negb (is_library e) then Ok s
  else
    match lib_new openable (file e) (open s) with
    | Throw _ => Ok s
    | UB => UB
    | Ok (lib, w) =>
        if negb (has_symbol e) then let* w := lib_destroy lib w in Ok (mkSession (reg s) (active s) w)
        else
          let r := fold_left (fun r c => map_emplace c (Some (file e)) r) (commands e) (reg s) in
          if throws e then let* w := lib_destroy lib w in Ok (mkSession r (active s) w)
          else
            let* (vl, w) := emplace_back grow (active s) lib w in
            let* w := lib_destroy (snd vl) w in
            Ok (mkSession r (fst vl) w)
    end.
Definition load_plugins (openable grow : nat -> bool) (dir : list entry) (s : session) : res session :=
  for_list dir (load_one openable grow) s.

(** running a command: its code must be there *)
Definition run_command (name : str) (s : session) : res unit :=
  match map_find name (reg s) with
  | Some (Some f) => if open s f =? 0 then UB else Ok tt
  | _ => Ok tt
  end.
(** the end of main (1453-1460): the registry is destroyed, whose handlers are destroyed by their own code, then the libraries *)
Definition shut_down (s : session) : res world :=
  let* _ := for_list (reg s) (fun h _ => match snd h with Some f => if open s f =? 0 then UB else Ok tt | None => Ok tt end) tt in
  for_list (active s) lib_destroy (open s).
