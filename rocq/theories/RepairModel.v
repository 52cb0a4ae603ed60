(** RepairModel.v -- model of the integer repair of lifted cochains:
    toroidalcoords.py:125-174 and complexprojectivecoords.py:116-156.
    scipy.optimize.milp is a parameter. Cochain entries are unbounded integers
    (simplification: no int64 overflow). *)
From Coq Require Import String.
From Verif Require Import Base CombinatorialModel DeltaModel RealBase.
Local Open Scope list_scope.

(** [milp(zeros, integrality=ones, constraints=LinearConstraint(A, y, y), bounds=Bounds())]:
    [None] is [success == False], [Some x] the answer ["x"]. *)
Definition milp_solver := sparse -> list Z -> option (list R).

(** [bool(A)] of a scipy sparse array: an error unless its shape is (1, 1). *)
Definition csr_bool (A : sparse) : res bool :=
  if (s_rows A =? 1) && (s_cols A =? 1) then Ok (negb (length (s_entries A) =? 0))
  else Raise ValueError.

(** toroidalcoords.py:143-173 (and complexprojectivecoords.py:127-156): the answer of the
    solver is rounded and [prime] times it is subtracted. *)
Definition repair_with (prime : Z) (milp : milp_solver) (delta : sparse) (index : Z)
    (cocycle_as_vector : list Z) : res (list Z) :=
  d_cocycle <- matvec (K := Zring) delta cocycle_as_vector ;;
  let y := map (fun v => (v / prime)%Z) d_cocycle in
  match milp delta y with
  | None => Raise (NoIntegralLift index)
  | Some solution =>
      if List.length solution =? List.length cocycle_as_vector then
        Ok (map (fun p => (fst p - prime * rint (snd p))%Z) (combine cocycle_as_vector solution))
      else Raise ValueError
  end.

Section Repair.
Context {D : Type} (ltD : D -> D -> bool).

(** toroidalcoords.py:129-173: one turn of the loop over the classes.  State: [delta1]
    (None until first needed) and [fixed_cocycles].  Line 139,
    [delta1 = delta1 or make_delta1_compact(..)], evaluates [bool(delta1)]. *)
Definition repair_step (junk : nat -> Z) (prime : Z) (milp : milp_solver)
    (dist_land_land : list (list D)) (rips_threshold : D) (lookup_table : list (list nat))
    (entry : Z * list Z) (st : option sparse * list (list Z))
    : res (option sparse * list (list Z)) :=
  let class_idx := fst entry in
  let cocycle_as_vector := snd entry in
  r <- is_one_cocycle ltD cocycle_as_vector dist_land_land rips_threshold lookup_table ;;
  if fst r then Ok (fst st, snd st ++ [cocycle_as_vector])
  else
    keep <- match fst st with None => Ok false | Some A => csr_bool A end ;;
    delta1 <- match fst st, keep with
              | Some A, true => Ok A
              | _, _ => make_delta1_compact ltD junk dist_land_land rips_threshold lookup_table
              end ;;
    new_cocycle_as_vector <- repair_with prime milp delta1 class_idx cocycle_as_vector ;;
    Ok (Some delta1, snd st ++ [new_cocycle_as_vector]).

(** toroidalcoords.py:125-174. *)
Definition repair_all (junk : nat -> Z) (prime : Z) (milp : milp_solver)
    (dist_land_land : list (list D)) (rips_threshold : D) (lookup_table : list (list nat))
    (integer_cocycles_as_vectors : list (list Z)) : res (list (list Z)) :=
  st <- for_in (combine (map Z.of_nat (range 0 (List.length integer_cocycles_as_vectors)))
                        integer_cocycles_as_vectors)
          (repair_step junk prime milp dist_land_land rips_threshold lookup_table)
          (None, []) ;;
  Ok (snd st).

(** The global names bound in complexprojectivecoords.py (lines 1-12, and the functions
    and class defined in the file). *)
Definition complexprojectivecoords_globals : list string :=
  ["np"; "jit"; "sparse"; "lsqr"; "LinearConstraint"; "milp"; "PartUnity"; "CohomologyUtils";
   "EquivariantPCA"; "EMCoords"; "combinatorial_number_system_table";
   "combinatorial_number_system_d1_forward"; "combinatorial_number_system_d2_forward";
   "ComplexProjectiveCoords"; "_two_cocycle_to_tensor"; "_one_cocycle_to_tensor";
   "_sparse_integrate"; "_is_two_cocycle"]%string.

(** Reading a global name. *)
Definition global_name (globals : list string) (name : string) : res unit :=
  if existsb (String.eqb name) globals then Ok tt else Raise NameError.

(** complexprojectivecoords.py:116-156; [globals] are the names the module can see;
    line 135 evaluates [scipy.optimize.Bounds()]. *)
Definition repair_two (globals : list string) (junk : nat -> Z) (prime : Z) (milp : milp_solver)
    (dist_land_land : list (list D)) (rips_threshold : D) (lookup_table : list (list nat))
    (cocycle_idx : Z) (integer_cocycle_as_vector : list Z) : res (list Z) :=
  is_cocycle <- is_two_cocycle ltD integer_cocycle_as_vector dist_land_land rips_threshold lookup_table ;;
  if negb is_cocycle then
    delta2 <- make_delta2_compact ltD junk dist_land_land rips_threshold lookup_table ;;
    _ <- matvec (K := Zring) delta2 integer_cocycle_as_vector ;;
    _ <- global_name globals "LinearConstraint" ;;
    _ <- global_name globals "scipy" ;;
    repair_with prime milp delta2 cocycle_idx integer_cocycle_as_vector
  else Ok integer_cocycle_as_vector.
End Repair.
