(** SpecSimplex.v -- what a simplex is, and the order used for numbering them.
    Independent of the model: only lists of naturals. *)
From Coq Require Import List Arith Sorted.
Import ListNotations.

(** [s] is an oriented [d]-simplex on vertices [0 .. n-1]: a strictly increasing
    tuple of [d+1] vertices. *)
Definition simplex (n d : nat) (s : list nat) : Prop :=
  length s = S d /\ StronglySorted lt s /\ Forall (fun v => v < n) s.

(** Lexicographic order on lists of equal length. *)
Inductive lex_lt : list nat -> list nat -> Prop :=
| lex_head : forall x y s t, x < y -> lex_lt (x :: s) (y :: t)
| lex_tail : forall x s t, lex_lt s t -> lex_lt (x :: s) (x :: t).

(** Colexicographic order: compare the largest vertices first. *)
Definition colex_lt (s t : list nat) : Prop := lex_lt (rev s) (rev t).

(** The binomial coefficient, by its factorial characterisation. *)
Definition is_binomial (n k b : nat) : Prop :=
  (k <= n /\ b * (fact k * fact (n - k)) = fact n) \/ (n < k /\ b = 0).
