(** CombinatorialModel.v -- model of dreimac/combinatorial.py. *)
From Verif Require Import Base.

(** scipy.special.comb(i, l, exact=True), used at combinatorial.py:13.
    External function; modelled by Pascal's recursion (exact integers). *)
Fixpoint comb (n k : nat) : nat :=
  match k with
  | 0 => 1
  | S k' => match n with
            | 0 => 0
            | S n' => comb n' k' + comb n' (S k')
            end
  end.

(** combinatorial.py:8-15 [combinatorial_number_system_table].
    The double loop that fills a zero array is written as a comprehension. *)
Definition combinatorial_number_system_table (maximum_number_vertices maximum_dimension : nat)
  : list (list nat) :=
  map (fun i => map (fun l => comb i l) (range 0 (maximum_dimension + 2)))
      (range 0 (maximum_number_vertices + 1)).

(** [lookup_table[i, l]]: [err] is IndexError in plain Python and MemoryUnsafe
    in jitted code. *)
Definition lookup (err : exn) (lookup_table : list (list nat)) (i l : nat) : res nat :=
  row <- get err lookup_table i ;; get err row l.

(** combinatorial.py:17-18 [number_of_simplices_of_dimension]. *)
Definition number_of_simplices_of_dimension (dimension n_vertices : nat)
    (lookup_table : list (list nat)) : res nat :=
  lookup IndexError lookup_table n_vertices (dimension + 1).

(** combinatorial.py:20-28 [combinatorial_number_system_forward] (jitted). *)
Definition combinatorial_number_system_forward (oriented_simplex : list nat)
    (lookup_table : list (list nat)) : res nat :=
  for_in (range 0 (length oriented_simplex))
    (fun l res =>
       v <- get MemoryUnsafe oriented_simplex l ;;
       x <- lookup MemoryUnsafe lookup_table v (l + 1) ;;
       Ok (res + x))
    0.

(** combinatorial.py:31-33 [combinatorial_number_system_d1_forward] (jitted). *)
Definition combinatorial_number_system_d1_forward (v0 v1 : nat)
    (lookup_table : list (list nat)) : res nat :=
  a <- lookup MemoryUnsafe lookup_table v0 1 ;;
  b <- lookup MemoryUnsafe lookup_table v1 2 ;;
  Ok (a + b).

(** combinatorial.py:36-40 [combinatorial_number_system_d2_forward] (jitted). *)
Definition combinatorial_number_system_d2_forward (v0 v1 v2 : nat)
    (lookup_table : list (list nat)) : res nat :=
  a <- lookup MemoryUnsafe lookup_table v0 1 ;;
  b <- lookup MemoryUnsafe lookup_table v1 2 ;;
  c <- lookup MemoryUnsafe lookup_table v2 3 ;;
  Ok (a + b + c).
