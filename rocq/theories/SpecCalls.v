(** SpecCalls.v -- sequences of calls on one object of ProjectiveCoords, LensCoords or
    ComplexProjectiveCoords: what an object [x] can turn into, with any arguments and whether or not the
    calls raise. *)
From Coq Require Import Reals List ZArith.
From Verif Require Import Base RealBase EMModel SpecEM CohomologyModel ToroidalModel ComplexBase PPCAModel ClassMapModel ComplexProjModel.
Import ListNotations.

Inductive projective_history (x : proj) : proj -> Prop :=
| projective_start : projective_history x x
| projective_call : forall y eigh perc k dim f sr m, projective_history x y ->
    projective_history x (fst (projective_get_coordinates eigh y perc k dim f sr m)).

Inductive lens_history (x : proj) : proj -> Prop :=
| lens_start : lens_history x x
| lens_call : forall y eigh perc k dim f sr m, lens_history x y ->
    lens_history x (fst (lens_get_coordinates eigh y perc k dim f sr m)).

Inductive complex_history (x : cproj) : cproj -> Prop :=
| complex_start : complex_history x x
| complex_call : forall y ext eigh globals perc k dim f sr check m, complex_history x y ->
    complex_history x (fst (complexprojective_get_coordinates ext eigh globals y perc k dim f sr check m)).

(** Every stored value, in every degree, is a field element 0 .. p-1, as computed by ripser. *)
Definition field_store (e : em) : Prop :=
  forall cs c row, In cs (em_cocycles e) -> In c cs -> In row (c_rows c) -> (0 <= snd row < em_prime e)%Z.

(** The attributes of an object with data [e] and stored variance [v] after a call for class [k] of
    degree [deg] with result [result]: they are untouched if there is no such class or its range is
    empty; otherwise threshold and radius are the chosen ones, also if something later raises; the
    variance changes only if the call returns. *)
Definition attributes_after {V A} (chosen : R -> R -> R -> R -> Prop) (deg : nat) (e : em) (v : V) (k : pyval) (sr : bool)
    (e' : em) (v' : V) (result : res A) : Prop :=
  ((forall birth death c, ~ em_class e deg k birth death c) -> (exists err, result = Raise err) /\ e' = e) /\
  (forall birth death c, em_class e deg k birth death c ->
     let start := (if sr then 2 * birth else birth)%R in
     ((death < start)%R -> result = Raise ClassTooShort /\ e' = e) /\
     ((start <= death)%R -> exists t r, em_rips_threshold e' = Some t /\ em_r_cover e' = Some r /\ chosen start death t r)) /\
  ((exists err, result = Raise err) -> v' = v).
