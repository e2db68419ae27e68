(** MatchModel.v - image_operations.h: find_keypoint_matches, find_raw_matches, find_robust_matches. *)
From Verif Require Import Base OField PixelModel.
Open Scope nat_scope.

Section Match.
  (** distances are elements of an ordered field; [big] is std::numeric_limits<FloatingType>::max();
      [dist] is the DistanceFunction, which may throw *)
  Variable K : ofield.
  Variable big : K.
  Context {D : Type} (dist : D -> D -> res K).

  (** 7265-7282, 7338-7357  the nearest and second nearest of descriptors2: (best, second best, index); the index starts
      as std::size_t(-1) *)
  Definition scan_best (a : D) (d2 : list D) : res (K * K * nat) :=
    for_range (length d2) (fun j st =>
      let '(best, second, idx) := st in
      let* b := vget d2 j in
      let* d := dist a b in
      Ok (if (d <? best)%F then (d, best, j)
          else if (d <? second)%F then (best, d, idx)
          else st)) (big, big, usub 0 1).

  (** 7298-7373  find_raw_matches (and 7230-7296  find_keypoint_matches, the same statements).  The descriptors of the
      first list are processed in the order [s]; the mutex makes each emplace_back atomic.  An exception under a
      parallel policy ends the program; it is modelled as the throw *)
  Definition find_raw_matches (s : nat -> list nat) (d1 d2 : list D) (ratio : K) : res (list (nat * nat)) :=
    if (length d1 =? 0) || (length d2 =? 0) then Ok []
    else
      for_list (s (length d1)) (fun i matches =>
        let* a := vget d1 i in
        let* st := scan_best a d2 in
        let '(best, second, idx) := st in
        Ok (if (best <? ratio * ratio * second)%F then matches ++ [(i, idx)] else matches)) [].

  (** 7405-7456  find_robust_matches; [s1] and [s2] are the orders of the two searches *)
  Definition find_robust_matches (s1 s2 : nat -> list nat) (d1 d2 : list D) (ratio : K) : res (list (nat * nat)) :=
    let* m12 := find_raw_matches s1 d1 d2 ratio in
    let* m21 := find_raw_matches s2 d2 d1 ratio in
    for_list m12 (fun m1 robust =>
      let* r := for_list m21 (fun m2 (st : list (nat * nat) * bool) =>
        let '(robust, stop) := st in
        if stop then Ok st
        else if (fst m1 =? snd m2) && (snd m1 =? fst m2) then Ok (robust ++ [m1], true) else Ok st) (robust, false) in
      Ok (fst r)) [].
End Match.
