(** PropCohomology.v -- properties C05-C09 (dreimac/utils.py, CohomologyUtils). *)
From Coq Require Import Permutation Sorted.
From Verif Require Import Base BaseProofs CombinatorialModel SpecSimplex CombinatorialProofs
  CohomologyModel SpecCohomology ParityProofs Argsort CohomologyProofs.

(** C05: [parity] terminates and returns (-1)^inversions for every permutation. *)
Theorem C05_parity_is_sign :
  forall n p, Permutation p (seq 0 n) ->
  parity p = Ok (if Nat.even (inversions (map Z.of_nat p)) then 1%Z else (-1)%Z).
Proof. intros n p H; exact (parity_orientation n p H). Qed.
Print Assumptions C05_parity_is_sign.

Example C05_nonvacuous :
  Permutation [2; 0; 1; 4; 3] (seq 0 5) /\ inversions (map Z.of_nat [2; 0; 1; 4; 3]) = 3 /\
  parity [2; 0; 1; 4; 3] = Ok (-1)%Z.
Proof.
  split; [|split; vm_compute; reflexivity].
  apply NoDup_Permutation; [repeat constructor; cbn; lia | apply seq_NoDup|].
  intros x; rewrite in_seq; cbn; lia.
Qed.

(** C06: [order_simplex] returns the increasing rearrangement and its sign, for any
    argsort. *)
Theorem C06_order_simplex :
  forall argsort l, NoDup l -> is_argsort Z.le 0%Z l (argsort l) ->
  exists s, order_simplex argsort l = Ok (s, orientation l) /\
    StronglySorted Z.lt s /\ Permutation s l.
Proof. exact order_simplex_ok. Qed.
Print Assumptions C06_order_simplex.

Example C06_nonvacuous :
  is_argsort Z.le 0%Z [7; 3; 5]%Z (argsort_Z [7; 3; 5]%Z) /\
  order_simplex argsort_Z [7; 3; 5]%Z = Ok ([3; 5; 7]%Z, 1%Z) /\
  order_simplex argsort_Z [7; 5; 3]%Z = Ok ([3; 5; 7]%Z, (-1)%Z).
Proof. split; [apply argsort_Z_ok | split; vm_compute; reflexivity]. Qed.

(** C07: the dense vector.  [s] ranges over all [d]-simplices and [k] is its number.
    If several rows name the same simplex the last one counts. *)
Theorem C07_sparse_to_dense :
  forall argsort N D n d c, n <= N -> d <= D ->
  (forall l, is_argsort Z.le 0%Z l (argsort l)) ->
  c_dim c = d ->
  (forall vs v, In (vs, v) (c_rows c) ->
     length vs = S d /\ NoDup vs /\ Forall (fun u => (0 <= u < Z.of_nat n)%Z) vs) ->
  let table := combinatorial_number_system_table N D in
  exists vec,
    sparse_cocycle_to_vector argsort c table n = Ok vec /\
    is_binomial n (S d) (length vec) /\
    forall s k, simplex n d s -> combinatorial_number_system_forward s table = Ok k ->
      (forall pre vs v post, c_rows c = pre ++ (vs, v) :: post ->
         Permutation (map Z.of_nat s) vs ->
         (forall vs' v', In (vs', v') post -> ~ Permutation (map Z.of_nat s) vs') ->
         nth_error vec k = Some (v * orientation vs)%Z) /\
      ((forall vs v, In (vs, v) (c_rows c) -> ~ Permutation (map Z.of_nat s) vs) ->
         nth_error vec k = Some 0%Z).
Proof.
  intros argsort N D n d c HN HD A Hd F table.
  destruct (sparse_to_vector_ok argsort n d c N D HN HD Hd) as (vec & E & L & H); [|exact A|].
  - apply Forall_forall; intros [vs v] Hr; apply (F vs v Hr).
  - exists vec; split; [exact E|split; [rewrite L; apply comb_is_binomial|]].
    intros s k Hs Ek; unfold table in Ek; rewrite (forward_ok N D n d) in Ek by assumption.
    apply Ok_inj in Ek; subst k; destruct (H s Hs) as [H1 H2]; split.
    + intros pre vs v post Ep P Hp; apply (H1 pre vs v post Ep P).
      intros [vs' v'] Hr; apply (Hp vs' v' Hr).
    + intros Hn; apply H2; intros [vs v] Hr; apply (Hn vs v Hr).
Qed.
Print Assumptions C07_sparse_to_dense.

Example C07_nonvacuous :
  let c := mkCocycle 1 [([2; 0]%Z, 5%Z); ([1; 3]%Z, (-2)%Z)] in
  (forall vs v, In (vs, v) (c_rows c) ->
     length vs = 2 /\ NoDup vs /\ Forall (fun u => (0 <= u < 4)%Z) vs) /\
  sparse_cocycle_to_vector argsort_Z c (combinatorial_number_system_table 4 2) 4 =
    Ok [0; -5; 0; 0; -2; 0]%Z.
Proof.
  split; [|vm_compute; reflexivity].
  cbn [c_rows]; intros vs v [E|[E|[]]]; injection E as <- <-;
    (split; [reflexivity|split; [repeat constructor; cbn; lia | repeat constructor; lia]]).
Qed.

(** C08: the lift.  Values are replaced by the unique representative in [-p/2, p/2),
    which has least absolute value; simplices, order and support are kept; a second
    application changes nothing. *)
Theorem C08_integer_lift :
  forall p c, (2 <= p)%Z -> Forall (fun row => (0 <= snd row < p)%Z) (c_rows c) ->
  let c' := lift_to_integer_cocycle p c in
  c_dim c' = c_dim c /\
  Forall2 (fun row row' =>
      let v := snd row in let w := snd row' in
      fst row' = fst row /\
      (exists q, w - v = q * p)%Z /\ (- p <= 2 * w < p)%Z /\
      (forall u, (exists q, u - v = q * p)%Z -> (- p <= 2 * u < p)%Z -> u = w) /\
      (forall u, (exists q, u - v = q * p)%Z -> (Z.abs w <= Z.abs u)%Z) /\
      (w = 0 <-> v = 0)%Z)
    (c_rows c) (c_rows c') /\
  lift_to_integer_cocycle p c' = c'.
Proof.
  intros p c Hp F c'; split; [reflexivity|split; [|apply lift_lift; assumption]].
  unfold c', lift_to_integer_cocycle; cbn [c_rows].
  induction F as [|row rows Hr F IH]; cbn [map]; constructor; [|exact IH].
  destruct (lift_value_spec p (snd row) Hp Hr) as (H1 & H2 & H3 & H4 & H5 & _).
  cbn [fst snd]; repeat split; assumption || apply H2 || apply H5.
Qed.
Print Assumptions C08_integer_lift.

Example C08_nonvacuous :
  let c := mkCocycle 1 [([0; 1]%Z, 46%Z); ([1; 2]%Z, 1%Z); ([0; 3]%Z, 24%Z)] in
  Forall (fun row => (0 <= snd row < 47)%Z) (c_rows c) /\
  c_rows (lift_to_integer_cocycle 47 c) = [([0; 1]%Z, (-1)%Z); ([1; 2]%Z, 1%Z); ([0; 3]%Z, (-23)%Z)].
Proof. split; [repeat constructor; cbn; lia | vm_compute; reflexivity]. Qed.

(** C09: reindexing is exactly inverse to labelling landmark [k] by [idx_land[k]], in
    every dimension, for every cocycle, values untouched.  Other data indices become
    -1; indices beyond the data raise. *)
Theorem C09_reindex_inverts_labelling :
  forall idx_land N cocycles, NoDup idx_land ->
  Forall (fun v => (0 <= v < Z.of_nat N)%Z) idx_land ->
  (forall ck c vs x v, In ck cocycles -> In c ck -> In (vs, x) (c_rows c) -> In v vs ->
     (0 <= v < Z.of_nat (length idx_land))%Z) ->
  let label v := nth (Z.to_nat v) idx_land (-1)%Z in
  let labelled := map (map (fun c =>
        mkCocycle (c_dim c) (map (fun row => (map label (fst row), snd row)) (c_rows c)))) cocycles in
  reindex_cocycles labelled idx_land N = Ok cocycles.
Proof.
  intros idx N cs ND F H; apply (reindex_relabel idx N cs ND F).
  intros ck c [vs x] v; apply H.
Qed.
Print Assumptions C09_reindex_inverts_labelling.

Theorem C09_reindex_other_indices :
  forall idx_land N dim v x, NoDup idx_land ->
  Forall (fun v => (0 <= v < Z.of_nat N)%Z) idx_land ->
  ((0 <= v < Z.of_nat N)%Z -> ~ In v idx_land ->
     reindex_cocycles [[mkCocycle dim [([v], x)]]] idx_land N = Ok [[mkCocycle dim [([(-1)%Z], x)]]]) /\
  ((Z.of_nat N <= v)%Z ->
     reindex_cocycles [[mkCocycle dim [([v], x)]]] idx_land N = Raise IndexError).
Proof.
  intros idx N dim v x ND F; destruct (idx_map_ok idx N ND F) as (m & E & _ & _ & _).
  destruct (reindex_vertex idx N m v ND F E) as [H1 H2].
  unfold reindex_cocycles; rewrite E; cbn [bind map_res reindex_cocycle c_rows c_dim fst snd].
  unfold reindex_cocycle; cbn [c_rows map_res fst snd]; split.
  - intros Hv Hn; rewrite (H1 Hv Hn); reflexivity.
  - intros Hv; rewrite (H2 Hv); reflexivity.
Qed.
Print Assumptions C09_reindex_other_indices.

Example C09_nonvacuous :
  NoDup [5; 0; 3]%Z /\ Forall (fun v => (0 <= v < Z.of_nat 6)%Z) [5; 0; 3]%Z /\
  reindex_cocycles [[]; [mkCocycle 1 [([5; 3]%Z, 7%Z); ([0; 5]%Z, 1%Z)]]] [5; 0; 3]%Z 6 =
    Ok [[]; [mkCocycle 1 [([0; 2]%Z, 7%Z); ([1; 0]%Z, 1%Z)]]].
Proof.
  split; [repeat constructor; cbn; lia|split; [repeat constructor; lia|vm_compute; reflexivity]].
Qed.
