(** SpecPPCA.v -- notions used to state the properties of EquivariantPCA.ppca. *)
From Verif Require Import Base SpecEM ComplexBase PPCAModel.
Import ListNotations.
Local Open Scope R_scope.

(** numpy's eigh returns a square matrix of the size of its argument. *)
Definition eigh_shape (eigh : eigh_fn) : Prop :=
  forall d G U, matrix d d G -> eigh G = Some U -> matrix d d U.

(** A point with finite coordinates on the unit sphere; a point with NaN coordinates. *)
Definition unit_point (x : list (option C)) : Prop :=
  exists v : list C, x = map Some v /\ sumn (length v) (fun k => cabs2 (nth k v c0)) = 1.
Definition nan_point (x : list (option C)) : Prop := Forall (fun z => z = None) x.

(** Multiply each point by its own scalar. *)
Definition scale_rows (lams : list C) (X : list (list (option C))) : list (list (option C)) :=
  map (fun p => map (option_map (cmul (fst p))) (snd p)) (combine lams X).

(** Complex sum and Hermitian product of finite vectors. *)
Definition csum (n : nat) (f : nat -> C) : C := (sumn n (fun i => fst (f i)), sumn n (fun i => snd (f i))).
Definition herm (n : nat) (u v : list C) : C := csum n (fun k => cmul (conj (nth k u c0)) (nth k v c0)).

(** The eigenvectors (columns) form a unitary matrix. *)
Definition unitary (d : nat) (U : list (list C)) : Prop :=
  matrix d d U /\
  (forall i j, (i < d)%nat -> (j < d)%nat -> herm d (nth i U []) (nth j U []) = if (i =? j)%nat then c1 else c0) /\
  (forall k l, (k < d)%nat -> (l < d)%nat ->
     csum d (fun i => cmul (at2 c0 U i k) (conj (at2 c0 U i l))) = if (k =? l)%nat then c1 else c0).

(** The eigenvectors found are numbers (np.linalg.eigh raises rather than return NaN). *)
Definition eigh_finite (eigh : eigh_fn) : Prop :=
  forall G U, eigh G = Some U -> exists V : list (list C), U = map (map Some) V.

(** ** One reduction *)

(** [G] is the matrix of second moments sum_b x_b conj(x_b)^T of the points [X] of dimension [d];
    an entry is NaN if one of the coordinates it is computed from is. *)
Definition second_moments (d : nat) (X G : list (list (option C))) : Prop :=
  matrix d d G /\
  forall i j, (i < d)%nat -> (j < d)%nat ->
    ((exists x, In x X /\ (nth i x None = None \/ nth j x None = None)) -> entry G i j None) /\
    (forall y z : nat -> C,
       (forall b x, nth_error X b = Some x -> nth i x None = Some (y b) /\ nth j x None = Some (z b)) ->
       entry G i j (Some (csum (length X) (fun b => cmul (y b) (conj (z b)))))).

(** [u] is the [j]-th principal direction of the points: eigenvectors of the second moments are
    numbered from 0 for the last one found; the standard basis is used if none are found. *)
Definition direction (eigh : eigh_fn) (d : nat) (X : list (list (option C))) (j : nat) (u : list (option C)) : Prop :=
  (j < d)%nat /\ exists G, second_moments d X G /\
    match eigh G with
    | Some U => nth_error U (d - 1 - j) = Some u
    | None => length u = d /\ forall k, (k < d)%nat -> nth_error u k = Some (Some (if (k =? j)%nat then c1 else c0))
    end.

(** [z] is the component of [x] along [u]: the Hermitian product, or NaN. *)
Definition component (u x : list (option C)) (z : option C) : Prop :=
  (forall u' x', u = map Some u' -> x = map Some x' -> z = Some (herm (length x) u' x')) /\
  (In None u \/ In None x -> z = None).

(** [z] is [y] divided by its norm; NaN if this is 0 or NaN. *)
Definition normalized (y z : list (option C)) : Prop :=
  length z = length y /\
  (In None y -> nan_point z) /\
  forall v, y = map Some v -> let s := sumn (length v) (fun k => cabs2 (nth k v c0)) in
    (s = 0 -> nan_point z) /\ (s <> 0 -> z = map Some (map (cscale (/ sqrt s)) v)).

(** The points [Z] are the components of the points [X] along the first [k] principal
    directions, normalized. *)
Definition reduction (eigh : eigh_fn) (d k : nat) (X Z : list (list (option C))) : Prop :=
  Forall2 (fun x z => exists y, normalized y z /\ length y = k /\
     forall j u, (j < k)%nat -> direction eigh d X j u -> exists c, nth_error y j = Some c /\ component u x c) X Z.

(** Reductions that follow one another, to the dimensions [ks]. *)
Inductive reductions (eigh : eigh_fn) : nat -> list nat -> list (list (option C)) -> list (list (option C)) -> Prop :=
| red_none : forall d X, reductions eigh d [] X X
| red_step : forall d k ks X Y Z, reduction eigh d k X Y -> reductions eigh k ks Y Z -> reductions eigh d (k :: ks) X Z.

(** The dimensions each mode passes through, from [n] to [p+1]: [direct] goes there at once;
    [exponential] halves the number of superfluous dimensions, and does nothing if there are none;
    [one-by-one] drops one dimension at a time. *)
Definition stages (m : mode) (n p : nat) : list nat :=
  match m with
  | Direct => [Nat.min (p + 1) n]
  | Exponential => if (n <=? p + 1)%nat then []
                   else map (fun i => p + 1 + (n - (p + 1)) / 2 ^ i)%nat (seq 1 (Nat.log2 (n - (p + 1)))) ++ [(p + 1)%nat]
  | OneByOne => map (fun i => n - i)%nat (seq 1 (n - (p + 1)))
  | OtherMode => []
  end.

(** The arguments for which ppca answers. *)
Definition accepted (m : mode) (n : nat) (p : Z) : Prop :=
  (1 <= n)%nat /\ (0 <= p)%Z /\
  match m with Direct | Exponential => True | OneByOne => (1 <= p < Z.of_nat n)%Z | OtherMode => False end.

(** The components of point [b] along the first [k] principal directions are all zero. *)
Definition vanishes (eigh : eigh_fn) (d k : nat) (X : list (list (option C))) (b : nat) : Prop :=
  forall j u, (j < k)%nat -> direction eigh d X j u -> component u (nth b X []) (Some c0).

(** [V] (columns) and [lam] are the eigenvectors and the eigenvalues, in increasing order, of
    the finite matrix [G] (rows). *)
Definition eigen_answer (d : nat) (G V : list (list C)) (lam : nat -> R) : Prop :=
  unitary d V /\
  (forall i k, (i < d)%nat -> (k < d)%nat ->
     csum d (fun l => cmul (at2 c0 G k l) (at2 c0 V i l)) = cscale (lam i) (at2 c0 V i k)) /\
  (forall i j, (i <= j < d)%nat -> lam i <= lam j).

(** Orthonormal families, and the part of the points (sum of squared moduli) that lies along one. *)
Definition orthonormal_family (n : nat) (W : list (list C)) : Prop :=
  forall i j, (i < length W)%nat -> (j < length W)%nat ->
    herm n (nth i W []) (nth j W []) = if (i =? j)%nat then c1 else c0.
Definition captured (n : nat) (W X : list (list C)) : R :=
  fold_right Rplus 0 (map (fun x => sumn (length W) (fun j => cabs2 (herm n (nth j W []) x))) X).
