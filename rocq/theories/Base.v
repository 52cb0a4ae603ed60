(** Base.v -- Python/numpy semantics shared by all models.

    Exceptions are values ([res]); [for_in] is a Python [for] loop whose body
    may raise; [range a b] is Python's [range(a, b)].  Nothing in this file
    models a particular line of /repo; it fixes the meaning of the notation
    in which the models are written. *)
From Coq Require Export List Arith ZArith Lia Bool.
Export ListNotations.

(** Exceptions the code can raise.  [MemoryUnsafe] is not a Python exception: it
    stands for an out-of-bounds access inside a numba-jitted function, where
    numpy's bounds checks are off and the behaviour is undefined. *)
Inductive exn : Type :=
| AssertionError
| IndexError
| ValueError
| TypeError
| NameError
| AttributeError
| LinAlgError
| ZeroDivisionError
| MemoryUnsafe
| ClassTooShort                  (* emcoords.py:146-148 *)
| SupportsDisjoint               (* toroidalcoords.py:92-95 *)
| NoIntegralLift (index : Z)     (* toroidalcoords.py:161-165, complexprojectivecoords.py:145-149 *)
| PrecisionLost                  (* an integer held in a double exceeds 2^53 (RoundModel.v) *)
| LoopForever.                   (* fuel exhausted: excluded or characterised by the theorems *)

Inductive res (A : Type) : Type :=
| Ok (a : A)
| Raise (e : exn).
Arguments Ok {A} a.
Arguments Raise {A} e.

Definition bind {A B} (r : res A) (f : A -> res B) : res B :=
  match r with Ok a => f a | Raise e => Raise e end.

Declare Scope res_scope.
Delimit Scope res_scope with res.
Notation "x <- e ;; f" := (bind e (fun x => f))
  (at level 61, e at next level, right associativity) : res_scope.
Notation "'guard' c 'else' err ;; f" :=
  (if c then f else Raise err)
  (at level 61, c at next level, err at next level, right associativity) : res_scope.
Open Scope res_scope.

(** Python's [for x in l: body], threading a state. *)
Fixpoint for_in {A S} (l : list A) (body : A -> S -> res S) (s : S) : res S :=
  match l with
  | [] => Ok s
  | x :: r => bind (body x s) (for_in r body)
  end.

(** Python's [range(a, b)] for naturals. *)
Definition range (a b : nat) : list nat := seq a (b - a).

(** Checked list reading: [l[i]] for [i >= 0]. *)
Definition get {A} (err : exn) (l : list A) (i : nat) : res A :=
  match nth_error l i with Some a => Ok a | None => Raise err end.

(** Checked assignment [l[i] = x]. *)
Definition set_at {A} (err : exn) (l : list A) (i : nat) (x : A) : res (list A) :=
  if i <? length l then Ok (firstn i l ++ x :: skipn (S i) l) else Raise err.

(** [[f(x) for x in l]] where [f] may raise. *)
Fixpoint map_res {A B} (f : A -> res B) (l : list A) : res (list B) :=
  match l with
  | [] => Ok []
  | x :: r => y <- f x ;; ys <- map_res f r ;; Ok (y :: ys)
  end.

(** Two-dimensional arrays as lists of rows, built from and read by index. *)
Definition mk1 {A} (n : nat) (f : nat -> A) : list A := map f (seq 0 n).
Definition mk2 {A} (n m : nat) (f : nat -> nat -> A) : list (list A) :=
  map (fun i => map (fun j => f i j) (seq 0 m)) (seq 0 n).
Definition at1 {A} (d : A) (l : list A) (i : nat) : A := nth i l d.
Definition at2 {A} (d : A) (m : list (list A)) (i j : nat) : A := nth j (nth i m []) d.
