(** PPCAModel.v -- model of dreimac/utils.py:703-797, EquivariantPCA.ppca.
    Arrays are complex with NaN ([option C]); a real array is a complex one with zero
    imaginary parts (simplification).  [class_map] is given by its rows; [n_dim] is
    [class_map.shape[1]].  [X = class_map.T] is given by its columns, which are the rows of
    [class_map]. *)
From Verif Require Export ComplexBase.
Local Open Scope R_scope.

(** np.linalg.eigh: the matrix of eigenvectors, by columns; [None]: it raised. *)
Definition eigh_fn := list (list (option C)) -> option (list (list (option C))).

(** [X.dot(np.conjugate(X).T)] for X with [d] rows. *)
Definition gram_of (d : nat) (X : list (list (option C))) : list (list (option C)) :=
  mk2 d d (fun i j => csum_nan (map (fun x => nan2 cmul (nth i x None) (option_map conj (nth j x None))) X)).

(** np.eye(d), by columns. *)
Definition ceye (d : nat) : list (list (option C)) := mk2 d d (fun i j => Some (if (i =? j)%nat then c1 else c0)).

(** utils.py:745-749 and 778-783: the eigenvectors in reversed order, or the identity. *)
Definition eigenvectors (eigh : eigh_fn) (d : nat) (X : list (list (option C))) : list (list (option C)) :=
  match eigh (gram_of d X) with Some U => rev U | None => ceye d end.

(** [np.conjugate(U).T.dot(X)], one column of X. *)
Definition rotate (U : list (list (option C))) (x : list (option C)) : list (option C) :=
  map (fun u => cdot_nan (map (option_map conj) u) x) U.

(** [Y[:k]] with Python's convention for negative [k]. *)
Definition slice_to {A} (k : Z) (l : list A) : list A :=
  if (k <? 0)%Z then firstn (length l - Z.to_nat (- k)) l else firstn (Z.to_nat k) l.

(** One column of [Y / np.linalg.norm(Y, axis=0)[None, :]]; 0/0 is NaN. *)
Definition norm2_nan (y : list (option C)) : option R :=
  fold_right (nan2 Rplus) (Some 0) (map (option_map cabs2) y).
Definition normalize (y : list (option C)) : list (option C) :=
  match norm2_nan y with
  | Some s => if Reqb (sqrt s) 0 then map (fun _ => None) y else map (option_map (cscale (/ sqrt s))) y
  | None => map (fun _ => None) y
  end.

(** utils.py:744-753 [_one_step_linear_reduction] on X with [d] rows; the new number of rows. *)
Definition one_step (eigh : eigh_fn) (dims_to_keep : Z) (st : nat * list (list (option C)))
  : nat * list (list (option C)) :=
  let U := eigenvectors eigh (fst st) (snd st) in
  (length (slice_to dims_to_keep U), map (fun x => normalize (slice_to dims_to_keep (rotate U x))) (snd st)).

(** utils.py:761-766: the halving loop; [fuel] bounds the number of turns. *)
Fixpoint halving (fuel : nat) (eigh : eigh_fn) (total_dims_to_keep to_keep_this_iter : Z)
    (st : nat * list (list (option C))) : res (nat * list (list (option C))) :=
  if (0 <? to_keep_this_iter)%Z then
    match fuel with
    | 0%nat => Raise LoopForever
    | S fuel => halving fuel eigh total_dims_to_keep (to_keep_this_iter / 2)
                  (one_step eigh (total_dims_to_keep + to_keep_this_iter) st)
    end
  else Ok st.

(** utils.py:784-787: the mean over the points of [(pi/2 - arccos|u . x|)^2] for the last
    column [u] of the reversed eigenvector matrix; arccos of a number above 1, the mean of
    no points and anything computed from a NaN is NaN. *)
Definition squared_angle (a : R) : option R := if Rltb 1 a then None else Some ((PI / 2 - acos a) ^ 2).
Definition mean_nan (l : list (option R)) : option R :=
  match fold_right (nan2 Rplus) (Some 0) l with
  | Some s => if (length l =? 0)%nat then None else Some (s / INR (length l))
  | None => None
  end.
Definition step_variance (U : list (list (option C))) (X : list (list (option C))) : option R :=
  mean_nan (map (fun x => match cdot_nan (last U []) x with Some z => squared_angle (cabs z) | None => None end) X).

(** utils.py:774-792, one turn of the loop.  State: number of rows of X, X, XRet, variance. *)
Definition loop_state := (nat * list (list (option C)) * option (list (list (option C))) * list (option R))%type.
Definition one_by_one_turn (eigh : eigh_fn) (n_dim proj_dim : Z) (i : nat) (st : loop_state) : res loop_state :=
  let '(d, X, XRet, variance) := st in
  let XRet := if (Z.of_nat i =? n_dim - proj_dim - 1)%Z then Some X else XRet in
  let U := eigenvectors eigh d X in
  variance <- (if (i <? length variance)%nat
               then set_at IndexError variance (length variance - i - 1) (step_variance U X)
               else Raise IndexError) ;;
  Ok (length (slice_to (-1) U), map (fun x => normalize (slice_to (-1) (rotate U x))) X, XRet, variance).

Inductive mode := Direct | Exponential | OneByOne | OtherMode.

(** utils.py:703-797 [ppca]: the pair (variance, X).  [np.zeros(-1)] is a ValueError;
    [None.T] is an AttributeError. *)
Definition ppca (eigh : eigh_fn) (class_map : list (list (option C))) (n_dim : nat) (proj_dim : Z) (m : mode)
  : res (list (option R) * list (list (option C))) :=
  guard match m with OtherMode => false | _ => true end else AssertionError ;;
  guard (1 <=? n_dim)%nat else ValueError ;;
  let variance := repeat (Some 0) (n_dim - 1) in
  let total_dims_to_keep := (proj_dim + 1)%Z in
  match m with
  | Direct => Ok (variance, snd (one_step eigh total_dims_to_keep (n_dim, class_map)))
  | Exponential =>
      let to_keep_this_iter := ((Z.of_nat n_dim - total_dims_to_keep) / 2)%Z in
      st <- halving (Z.to_nat to_keep_this_iter) eigh total_dims_to_keep to_keep_this_iter (n_dim, class_map) ;;
      let st := if (total_dims_to_keep <? Z.of_nat (fst st))%Z then one_step eigh total_dims_to_keep st else st in
      Ok (variance, snd st)
  | OneByOne =>
      st <- for_in (range 0 (n_dim - 1)) (one_by_one_turn eigh (Z.of_nat n_dim) proj_dim)
              (n_dim, class_map, None, variance) ;;
      let '(_, _, XRet, variance) := st in
      match XRet with Some X => Ok (variance, X) | None => Raise AttributeError end
  | OtherMode => Raise AssertionError
  end.
