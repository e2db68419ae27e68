(** IndexModel.v - linear_index_to_indices (image_operations.h:327-359) and the 64-bit wrap-around
    reading of the constructors and of at (image.h). *)
From Verif Require Import Base ImageModel.

(** unsigned division and remainder: undefined for a zero divisor *)
Definition udiv (a b : nat) : res nat := if b =? 0 then UB else Ok (a / b).
Definition umod (a b : nat) : res nat := if b =? 0 then UB else Ok (a mod b).

(** image_operations.h:331-342  overload with precomputed strides *)
Definition linear_index_to_indices_strides (k : nat) (strides sizes : list nat) : res (list nat) :=
  mapM (fun i =>
          let* st := vget strides i in
          let* q := udiv k st in
          let* s := vget sizes i in
          umod q s)
       (seq 0 (length sizes)).

(** image_operations.h:347-359  stride accumulated along the way *)
Fixpoint lin2idx_loop (k stride : nat) (sizes : list nat) : res (list nat) :=
  match sizes with
  | [] => Ok []
  | s :: sizes' =>
      let* q := udiv k stride in
      let* i := umod q s in
      let* r := lin2idx_loop k (stride * s) sizes' in Ok (i :: r)
  end.
Definition linear_index_to_indices (k : nat) (sizes : list nat) : res (list nat) :=
  lin2idx_loop k 1 sizes.

(** ** size_t with wrap-around: the same members of Image over [Z] modulo 2^64 *)
Section Wrap.
  Context {A : Type}.
  Open Scope Z_scope.

  (** std::reduce(..., size_t{1}, std::multiplies()) *)
  Definition prod64 (sizes : list Z) : Z := fold_left (fun acc s => w64 (acc * s)) sizes 1.

  (** image.h:75-114: extents stored as given, storage of the wrapped product *)
  Definition image_sizes64 (d : A) (sizes : list Z) : list Z * list A :=
    (sizes, repeat d (Z.to_nat (prod64 sizes))).

  (** image.h:827-856 *)
  Fixpoint calc_index64 (sizes idx : list Z) (index stride : Z) : res Z :=
    match idx with
    | [] => Ok index
    | i :: idx' =>
        match sizes with
        | [] => UB
        | s :: sizes' => calc_index64 sizes' idx' (w64 (index + w64 (i * stride))) (w64 (stride * s))
        end
    end.

  (** image.h:866-876 *)
  Fixpoint check_bounds64 (sizes idx : list Z) : res unit :=
    match idx with
    | [] => Ok tt
    | i :: idx' =>
        match sizes with
        | [] => UB
        | s :: sizes' => if s <=? i then Throw OutOfRange else check_bounds64 sizes' idx'
        end
    end.

  (** image.h:218-231, 858-877 *)
  Definition at64 (sizes : list Z) (data : list A) (idx : list Z) : res A :=
    if negb (Nat.eqb (length idx) (length sizes)) then Throw RuntimeError
    else let* _ := check_bounds64 sizes idx in
         let* k := calc_index64 sizes idx 0 1 in
         if (k <? Z.of_nat (length data)) then vget data (Z.to_nat k) else UB.
End Wrap.
