(** NestedModel.v - basic_functions.h: the recursive_* algorithms on nested containers (535-1796), the statistics built
    on them (931-939, 1540-1624), the n_dim_*_generator templates (1626-1698) and sum_*_element (3239-3346).

    A container nested [d] deep with elements of type [A] is a [nest d A]; for the templates with an unwrap level the
    elements at that level may be containers themselves, that is [A] may be any type.  Containers are sequences
    (vector, deque, list, array).  Function objects are pure or, where an exception or a state of theirs can be
    observed, of type [res] or a step function on their state.  Template argument deduction is not modelled: of
    recursive_count_if (711-726 and 746-760) both bodies are modelled although a call with an explicit level can be
    ambiguous. *)
From Coq Require Import Reals.
From Verif Require Import Base HistModel ReduceModel.
Open Scope nat_scope.

Fixpoint nest (d : nat) (A : Type) : Type :=
  match d with O => A | S d' => list (nest d' A) end.

(** ** predicates *)
(** std::ranges::all_of: in order, until one fails *)
Fixpoint all_ofM {A} (p : A -> res bool) (l : list A) : res bool :=
  match l with
  | [] => Ok true
  | a :: r => let* b := p a in if b then all_ofM p r else Ok false
  end.
(** std::ranges::find_if(range, p) != end(range): in order, until one succeeds *)
Fixpoint find_ifM {A} (p : A -> res bool) (l : list A) : res bool :=
  match l with
  | [] => Ok false
  | a :: r => let* b := p a in if b then Ok true else find_ifM p r
  end.

Section Predicates.
  Context {A P : Type} (p : P -> res bool) (proj : A -> res P).

  (** 537-550 *)
  Fixpoint recursive_all_of (level : nat) : nest level A -> res bool :=
    match level with
    | O => fun value => let* v := proj value in p v
    | S level' => fun value => all_ofM (recursive_all_of level') value
    end.

  (** 594-607 *)
  Fixpoint recursive_find_if (level : nat) : nest level A -> res bool :=
    match level with
    | O => fun value => let* v := proj value in p v
    | S level' => fun value => find_ifM (recursive_find_if level') value
    end.

  (** 610-615 *)
  Definition recursive_any_of (level : nat) (value : nest level A) : res bool := recursive_find_if level value.
  (** 618-622 *)
  Definition recursive_none_of (level : nat) (value : nest level A) : res bool :=
    let* b := recursive_any_of level value in Ok (negb b).
End Predicates.

(** 554-568; 572-590 with a policy has the same result, for pure [eqb] and [proj] *)
Fixpoint recursive_find {A P} (eqb : P -> P -> bool) (target : P) (proj : A -> P) (level : nat) : nest level A -> bool :=
  match level with
  | O => fun range => eqb target (proj range)
  | S level' => fun range => existsb (recursive_find eqb target proj level') range
  end.

(** ** counting *)
(** std::transform_reduce over a range: the transformed elements and the initial value, in any order and grouping *)
Definition transform_reduces {E T} (op : T -> T -> T) (init : T) (f : E -> T -> Prop) (l : list E) (r : T) : Prop :=
  exists vs, Forall2 f l vs /\ reduces op (init :: vs) r.

(** 661-675, 678-693 recursive_count (with [p] comparing with the target); 696-709, 711-726, 729-743 recursive_count_if *)
Fixpoint recursive_count_if {A} (p : A -> bool) (level : nat) : nest level A -> nat -> Prop :=
  match level with
  | O => fun input r => r = if p input then 1 else 0
  | S level' => fun input r => transform_reduces uadd 0 (recursive_count_if p level') input r
  end.
Definition recursive_count {A} (eqb : A -> A -> bool) (level : nat) (input : nest level A) (target : A) (r : nat) : Prop :=
  recursive_count_if (fun x => eqb x target) level input r.

(** 746-760  the version that ends with std::count_if; [level] is unwrap_level - 1 *)
Fixpoint recursive_count_if1 {A} (p : A -> bool) (level : nat) : nest (S level) A -> nat -> Prop :=
  match level with
  | O => fun input r => r = fold_left (fun n x => if p x then n + 1 else n) (input : list A) 0
  | S level' => fun input r => transform_reduces uadd 0 (recursive_count_if1 p level') input r
  end.

(** 763-780  batch_recursive_count_if *)
Fixpoint batch_recursive_count_if {A} (ps : list (A -> bool)) (level : nat) (input : nest (S level) A) (r : list nat) : Prop :=
  match ps with
  | [] => r = []
  | p :: ps' => exists n rest, recursive_count_if1 p level input n /\ batch_recursive_count_if ps' level input rest
                /\ r = [n] ++ rest
  end.

(** ** extrema *)
Section Extremum.
  Context {A : Type} (comp : A -> A -> bool) (proj : A -> A).

  (** std::ranges::max(a, b, comp, proj), std::ranges::min(a, b, comp, proj) *)
  Definition max2 (a b : A) : A := if comp (proj a) (proj b) then b else a.
  Definition min2 (a b : A) : A := if comp (proj b) (proj a) then b else a.

  (** 783-807: numbers.at(0) throws on an empty container *)
  Fixpoint recursive_max (d : nat) : nest d A -> res A :=
    match d with
    | O => fun x => Ok (proj x)
    | S d' => fun numbers =>
        match (numbers : list (nest d' A)) with
        | [] => Throw OutOfRange
        | first :: _ =>
            let* output := recursive_max d' first in
            for_list numbers (fun element output => let* m := recursive_max d' element in Ok (max2 output m)) output
        end
    end.

  (** 810-834 *)
  Fixpoint recursive_min (d : nat) : nest d A -> res A :=
    match d with
    | O => fun x => Ok (proj x)
    | S d' => fun numbers =>
        match (numbers : list (nest d' A)) with
        | [] => Throw OutOfRange
        | first :: _ =>
            let* output := recursive_min d' first in
            for_list numbers (fun element output => let* m := recursive_min d' element in Ok (min2 output m)) output
        end
    end.
End Extremum.

(** ** size *)
(** 857-875 recursive_size *)
Fixpoint recursive_size {A} (d : nat) : nest d A -> nat -> Prop :=
  match d with
  | O => fun _ r => r = 1
  | S d' =>
      match d' as k return (nest k A -> nat -> Prop) -> nest (S k) A -> nat -> Prop with
      | O => fun _ input r => r = length (input : list A)
      | S k => fun sub input r => transform_reduces uadd 0 sub (input : list (nest (S k) A)) r
      end (recursive_size d')
  end.

(** 878-890 recursive_size<unwrap_level>; [level] is unwrap_level - 1 *)
Fixpoint recursive_size_level {A} (level : nat) : nest (S level) A -> res nat :=
  match level with
  | O => fun input => Ok (length (input : list A))
  | S level' => fun input =>
      match (input : list (nest (S level') A)) with
      | [] => Throw OutOfRange
      | first :: _ => recursive_size_level level' first
      end
  end.

(** ** folds and traversals *)
(** 902-916 *)
Fixpoint recursive_reduce {A B} (f : B -> A -> res B) (level : nat) : nest level A -> B -> res B :=
  match level with
  | O => fun input init => f init input
  | S level' => fun input init => for_list (input : list (nest level' A)) (recursive_reduce f level') init
  end.

(** 942-963  recursive_for_each; [level] is unwrap_level - 1.  The function object has a state of its own, changed by
    each call; it is passed by value, so every innermost loop works on a fresh copy and the returned object is the
    argument.  The result is the list of calls (with the state of the object at the call) and the returned object. *)
Fixpoint calls_from {A St} (step : St -> A -> St) (s : St) (l : list A) : list (St * A) :=
  match l with [] => [] | a :: r => (s, a) :: calls_from step (step s a) r end.
Fixpoint recursive_for_each {A St} (step : St -> A -> St) (level : nat) (op : St) : nest (S level) A -> list (St * A) * St :=
  match level with
  | O => fun input => (calls_from step op (input : list A), op)
  | S level' => fun input => (flat_map (fun e => fst (recursive_for_each step level' op e)) (input : list (nest (S level') A)), op)
  end.

(** 1000-1012  impl::recursive_foreach_all and 1015-1035 recursive_reverse_foreach_all, on the captured state *)
Fixpoint recursive_foreach_all {A St} (f : A -> St -> res St) (d : nat) : nest d A -> St -> res St :=
  match d with
  | O => fun value s => f value s
  | S d' => fun inputRange s => for_list (inputRange : list (nest d' A)) (recursive_foreach_all f d') s
  end.
Fixpoint recursive_reverse_foreach_all {A St} (f : A -> St -> res St) (d : nat) : nest d A -> St -> res St :=
  match d with
  | O => fun value s => f value s
  | S d' => fun inputRange s => for_list (rev (inputRange : list (nest d' A))) (recursive_reverse_foreach_all f d') s
  end.
(** 1039-1047 *)
Definition recursive_fold_right_all {A I} (f : A -> I -> res I) (d : nat) (inputRange : nest d A) (init : I) : res I :=
  recursive_reverse_foreach_all f d inputRange init.

(** ** copies *)
(** 1050-1079; [level] is unwrap_level - 1 *)
Fixpoint recursive_replace_copy_if {A} (p : A -> bool) (new_value : A) (level : nat) : nest (S level) A -> nest (S level) A :=
  match level with
  | O => fun input => map (fun x => if p x then new_value else x) (input : list A)
  | S level' => fun input => map (recursive_replace_copy_if p new_value level') (input : list (nest (S level') A))
  end.
(** 1082-1109; 1144-1152 recursive_remove_copy with [p] comparing with the value *)
Fixpoint recursive_remove_copy_if {A} (p : A -> bool) (level : nat) : nest (S level) A -> nest (S level) A :=
  match level with
  | O => fun input => filter (fun x => negb (p x)) (input : list A)
  | S level' => fun input => map (recursive_remove_copy_if p level') (input : list (nest (S level') A))
  end.
Definition recursive_remove_copy {A} (eqb : A -> A -> bool) (value : A) (level : nat) (input : nest (S level) A) : nest (S level) A :=
  recursive_remove_copy_if (fun x => eqb x value) level input.
(** 1346-1400 *)
Fixpoint recursive_copy_if {A} (p : A -> bool) (level : nat) : nest (S level) A -> nest (S level) A :=
  match level with
  | O => fun input => filter p (input : list A)
  | S level' => fun input => map (recursive_copy_if p level') (input : list (nest (S level') A))
  end.

(** ** transform *)
(** 1174-1200 (and 1203-1235 for arrays) with one argument *)
Fixpoint recursive_transform {A B} (f : A -> res B) (level : nat) : nest level A -> res (nest level B) :=
  match level with
  | O => fun arg => f arg
  | S level' => fun arg => mapM (recursive_transform f level') arg
  end.

(** 1165-1171 with two ranges: [while (first != last) *d_first++ = op( *first++, *rest++)]: the second range is read
    without regard to its end *)
Fixpoint transform2 {A B C} (op : A -> B -> res C) (l : list A) (rest : list B) : res (list C) :=
  match l with
  | [] => Ok []
  | a :: l' =>
      match rest with
      | [] => UB
      | b :: rest' => let* c := op a b in let* cs := transform2 op l' rest' in Ok (c :: cs)
      end
  end.
(** 1174-1200 with two arguments *)
Fixpoint recursive_transform2 {A B C} (f : A -> B -> C) (level : nat) : nest level A -> nest level B -> res (nest level C) :=
  match level with
  | O => fun arg1 arg2 => Ok (f arg1 arg2)
  | S level' => fun arg1 arg2 => transform2 (recursive_transform2 f level') arg1 arg2
  end.

(** 1238-1266 with a policy: the output is resized, each slot is written once, in an order chosen for each container
    (named by its path [at]); the element type is default constructible *)
Definition ndefault {B} (b0 : B) (level : nat) : nest level B :=
  match level with O => b0 | S _ => [] end.
Fixpoint recursive_transform_policy {A B} (sg : list nat -> nat -> list nat) (b0 : B) (f : A -> B) (level : nat)
  (path : list nat) : nest level A -> res (nest level B) :=
  match level with
  | O => fun input => Ok (f input)
  | S level' => fun input =>
      let n := length (input : list (nest level' A)) in
      for_list (sg path n)
        (fun i output =>
           let* element := vget (input : list (nest level' A)) i in
           let* v := recursive_transform_policy sg b0 f level' (path ++ [i]) element in
           vset output i v)
        (repeat (ndefault b0 level') n)
  end.

(** ** transform-reduce *)
Section TransformReduce.
  Context {A T : Type} (zero : T) (binop : T -> T -> T) (unary_op : A -> T).

  (** 1403-1415, 1418-1433: exhaustive; [zero] is T{} *)
  Fixpoint recursive_transform_reduce (d : nat) : nest d A -> T -> T -> Prop :=
    match d with
    | O => fun input init r => r = binop init (unary_op input)
    | S d' => fun input init r =>
        transform_reduces binop init (fun element v => recursive_transform_reduce d' element zero v) input r
    end.

  (** 1436-1450, 1453-1474: with an unwrap level *)
  Fixpoint recursive_transform_reduce_level (level : nat) : nest level A -> T -> T -> Prop :=
    match level with
    | O => fun input init r => r = unary_op input
    | S level' => fun input init r =>
        transform_reduces binop init (fun element v => recursive_transform_reduce_level level' element zero v) input r
    end.
End TransformReduce.

(** ** flattening *)
(** 1726-1748 (and 1700-1723); [level] is unwrap_level - 1 *)
Fixpoint recursive_flatten {A} (level : nat) : nest (S level) A -> list A -> list A :=
  match level with
  | O => fun input output => fold_left (fun o e => o ++ [e]) (input : list A) output
  | S level' => fun input output => fold_left (fun o e => recursive_flatten level' e o) (input : list (nest (S level') A)) output
  end.
(** 1753-1779 (the version for older compilers): from an empty container *)
Definition recursive_flatten_view {A} (level : nat) (input : nest (S level) A) : list A := recursive_flatten level input [].
(** 1783-1796; [level] is unwrap_level - 1 *)
Definition recursive_minmax {A B} (lt : B -> B -> bool) (proj : A -> B) (level : nat) : nest (S level) A -> res (A * A) :=
  match level with
  | O => fun numbers => vminmax (fun a b => lt (proj a) (proj b)) numbers
  | S level' => fun numbers => vminmax (fun a b => lt (proj a) (proj b)) (recursive_flatten_view (S level') numbers)
  end.

(** ** generators *)
(** 1626-1698: vector, array, deque, list and generic containers *)
Fixpoint n_dim_generator {A} (dim : nat) (input : A) (times : nat) : nest dim A :=
  match dim with
  | O => input
  | S dim' => repeat (n_dim_generator dim' input times) times
  end.

(** ** statistics, on flat containers of doubles (exact real numbers) *)
(** 931-939 with T = double *)
Definition arithmetic_mean (input : list R) : res R :=
  match input with
  | [] => Throw LogicError
  | _ => Ok (fold_left Rplus input 0 / INR (length input))%R
  end.
(** 931-939 with T a signed integer type with the values [lo .. hi]: the sum is of type T, the division by a size_t *)
Definition arithmetic_mean_signed (lo hi : Z) (input : list Z) : res Z :=
  match input with
  | [] => Throw LogicError
  | _ => let* s := fold_left (fun s x => plus_signed lo hi s (Ok x)) input (Ok 0%Z) in mean_div s (length input)
  end.
(** 1540-1570: the transform-reduce may sum in any order *)
Definition population_variance (input : list R) (r : res R) : Prop :=
  match arithmetic_mean input with
  | Ok mean =>
      exists s, recursive_transform_reduce 0%R Rplus (fun element => (element - mean) ^ 2)%R 1 input 0%R s
      /\ r = Ok (s / INR (length input))%R
  | Throw e => r = Throw e
  | UB => r = UB
  end.
(** 1573-1591 *)
Definition population_standard_deviation (input : list R) (r : res R) : Prop :=
  match input with
  | [] => r = Throw LogicError
  | _ => exists v, population_variance input v /\ r = let* x := v in Ok (sqrt x)
  end.
(** 1594-1609 *)
Definition square_sum (d : nat) (input : nest d R) (r : R) : Prop :=
  recursive_transform_reduce 0%R Rplus (fun element => element ^ 2)%R d input 0%R r.
(** 1612-1624: [None] when the size is zero, where the double division gives a NaN *)
Definition root_mean_square (d : nat) (input : nest d R) (r : option R) : Prop :=
  exists s n, square_sum d input s /\ recursive_size d input n /\ r = if n =? 0 then None else Some (sqrt (s / INR n)).

(** ** sums of components *)
(** 3240-3250, 3270-3280, 3283-3293, 3313-3323 (sequential), of a vector of pairs or the pairs of a map *)
Definition sum_element {P T} (zero : T) (f : T -> T -> T) (sel : P -> T) (pairs : list P) : T :=
  fold_left (fun sum p => f sum (sel p)) pairs zero.
(** 3253-3268, 3296-3311, 3326-3346 (policy; sum_n_th_element also without): std::transform, then std::reduce *)
Definition sum_element_policy {P T} (init : T) (f : T -> T -> T) (sel : P -> T) (pairs : list P) (r : T) : Prop :=
  reduces f (init :: map sel pairs) r.
