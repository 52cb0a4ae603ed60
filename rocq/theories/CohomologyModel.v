(** CohomologyModel.v -- model of the combinatorial part of
    dreimac/utils.py, class CohomologyUtils (lines 228-313): parity,
    order_simplex, sparse_cocycle_to_vector, lift_to_integer_cocycle and
    reindex_cocycles. *)
From Verif Require Import Base CombinatorialModel.

(** A sparse cocycle is an integer array of shape (K, dim + 2); each row is the
    vertices of a simplex followed by a value.  The row is split in the model. *)
Record cocycle := mkCocycle {
  c_dim  : nat;                     (* shape[1] - 2 *)
  c_rows : list (list Z * Z)        (* (vertices, value) *)
}.

(** numpy reading [a[i]] with an integer index: negative indices count from the end. *)
Definition np_get {A} (l : list A) (i : Z) : res A :=
  let n := Z.of_nat (length l) in
  if (0 <=? i)%Z && (i <? n)%Z then get IndexError l (Z.to_nat i)
  else if (- n <=? i)%Z && (i <? 0)%Z then get IndexError l (Z.to_nat (n + i))
  else Raise IndexError.

Definition np_set {A} (l : list A) (i : Z) (x : A) : res (list A) :=
  let n := Z.of_nat (length l) in
  if (0 <=? i)%Z && (i <? n)%Z then set_at IndexError l (Z.to_nat i) x
  else if (- n <=? i)%Z && (i <? 0)%Z then set_at IndexError l (Z.to_nat (n + i)) x
  else Raise IndexError.

(** utils.py:230-250 [lift_to_integer_cocycle].  The comparison with the float
    (prime - 1) / 2 is written as [prime - 1 < 2 * value].  The routine mutates its
    argument and returns it: the result is also the new content of the argument. *)
Definition lift_value (prime v : Z) : Z :=
  if (prime - 1 <? 2 * v)%Z then (v - prime)%Z else v.

Definition lift_to_integer_cocycle (prime : Z) (c : cocycle) : cocycle :=
  mkCocycle (c_dim c) (map (fun row => (fst row, lift_value prime (snd row))) (c_rows c)).

(** utils.py:253-273 [reindex_cocycles]; returns the mutated list of lists. *)
Definition make_idx_map (idx_land : list Z) (N : nat) : res (list Z) :=
  for_in (combine idx_land (map Z.of_nat (range 0 (length idx_land))))
    (fun p idx_map => np_set idx_map (fst p) (snd p))
    (repeat (-1)%Z N).

Definition reindex_cocycle (idx_map : list Z) (c : cocycle) : res cocycle :=
  rows <- map_res (fun row =>
            vs <- map_res (np_get idx_map) (fst row) ;; Ok (vs, snd row)) (c_rows c) ;;
  Ok (mkCocycle (c_dim c) rows).

Definition reindex_cocycles (cocycles : list (list cocycle)) (idx_land : list Z) (N : nat)
  : res (list (list cocycle)) :=
  idx_map <- make_idx_map idx_land N ;;
  map_res (map_res (reindex_cocycle idx_map)) cocycles.

(** utils.py:286-288: the inner [while not elements_seen[current]] loop of [parity].
    [fuel] bounds the iterations; running out gives [LoopForever]. *)
Fixpoint parity_walk (fuel : nat) (permutation : list nat) (elements_seen : list bool)
    (current : nat) : res (list bool) :=
  match fuel with
  | 0 => Raise LoopForever
  | S fuel' =>
      seen <- get IndexError elements_seen current ;;
      if seen then Ok elements_seen
      else
        elements_seen' <- set_at IndexError elements_seen current true ;;
        next <- get IndexError permutation current ;;
        parity_walk fuel' permutation elements_seen' next
  end.

(** utils.py:276-289 [parity]. [enumerate(elements_seen)] iterates over the list that
    the body mutates, so each test reads the current content. *)
Definition parity_loop (fuel : nat) (permutation : list nat) : res (list bool * nat) :=
  let permutation_length := length permutation in
  for_in (range 0 permutation_length)
    (fun index (st : list bool * nat) =>
       already_seen <- get IndexError (fst st) index ;;
       if already_seen then Ok st
       else
         elements_seen' <- parity_walk fuel permutation (fst st) index ;;
         Ok (elements_seen', snd st + 1))
    (repeat false permutation_length, 0).

Definition parity (permutation : list nat) : res Z :=
  st <- parity_loop (length permutation + 1) permutation ;;
  Ok (if Z.even (Z.of_nat (length permutation) - Z.of_nat (snd st)) then 1%Z else (-1)%Z).

(** utils.py:292-296 [order_simplex]; [argsort] is numpy's, a parameter. *)
Definition order_simplex (argsort : list Z -> list nat) (unordered_simplex : list Z)
  : res (list Z * Z) :=
  let ordering_permutation := argsort unordered_simplex in
  sign <- parity ordering_permutation ;;
  simplex <- map_res (get IndexError unordered_simplex) ordering_permutation ;;
  Ok (simplex, sign).

(** Vertices reach jitted code as array indices; a negative one is treated as an
    unsafe access (simplification: numba would wrap it; reindexed cocycles never
    contain one, see C09). *)
Definition vertex_index (v : Z) : res nat :=
  if (0 <=? v)%Z then Ok (Z.to_nat v) else Raise MemoryUnsafe.

(** utils.py:299-313 [sparse_cocycle_to_vector] (dtype int). *)
Definition sparse_cocycle_to_vector (argsort : list Z -> list nat) (sparse_cocycle : cocycle)
    (lookup_table : list (list nat)) (n_vertices : nat) : res (list Z) :=
  let dimension := c_dim sparse_cocycle in
  n_simplices <- number_of_simplices_of_dimension dimension n_vertices lookup_table ;;
  for_in (c_rows sparse_cocycle)
    (fun entry cocycle_as_vector =>
       os <- order_simplex argsort (fst entry) ;;
       vs <- map_res vertex_index (fst os) ;;
       simplex_index <- combinatorial_number_system_forward vs lookup_table ;;
       set_at IndexError cocycle_as_vector simplex_index (snd entry * snd os)%Z)
    (repeat 0%Z n_simplices).
