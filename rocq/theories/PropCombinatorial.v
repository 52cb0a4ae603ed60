(** PropCombinatorial.v -- properties C01-C04 (dreimac/combinatorial.py). *)
From Coq Require Import Sorted.
From Verif Require Import Base CombinatorialModel SpecSimplex CombinatorialProofs.

(** C01: numbering is a bijection onto [0, number of simplices). *)
Theorem C01_simplex_numbering_bijection :
  forall max_vertices max_dim n d, n <= max_vertices -> d <= max_dim ->
  let table := combinatorial_number_system_table max_vertices max_dim in
  exists total,
    number_of_simplices_of_dimension d n table = Ok total /\
    (forall s, simplex n d s ->
       exists k, combinatorial_number_system_forward s table = Ok k /\ k < total) /\
    (forall s t, simplex n d s -> simplex n d t ->
       combinatorial_number_system_forward s table = combinatorial_number_system_forward t table ->
       s = t) /\
    (forall k, k < total ->
       exists s, simplex n d s /\ combinatorial_number_system_forward s table = Ok k).
Proof. intros; apply forward_bijection; assumption. Qed.
Print Assumptions C01_simplex_numbering_bijection.

Example C01_nonvacuous :
  let table := combinatorial_number_system_table 5 2 in
  simplex 5 2 [0; 1; 4] /\ combinatorial_number_system_forward [0; 1; 4] table = Ok 4 /\
  number_of_simplices_of_dimension 2 5 table = Ok 10.
Proof. split; [repeat split; repeat constructor | split; vm_compute; reflexivity]. Qed.

(** C02: numbers do not depend on the table and follow the colexicographic order. *)
Theorem C02_simplex_numbering_stable :
  forall N D N' D' n d s, n <= N -> n <= N' -> d <= D -> d <= D' -> simplex n d s ->
  combinatorial_number_system_forward s (combinatorial_number_system_table N D) =
  combinatorial_number_system_forward s (combinatorial_number_system_table N' D').
Proof. exact forward_stable. Qed.
Print Assumptions C02_simplex_numbering_stable.

Theorem C02_simplex_numbering_colex :
  forall N D n d s t ks kt, n <= N -> d <= D -> simplex n d s -> simplex n d t ->
  combinatorial_number_system_forward s (combinatorial_number_system_table N D) = Ok ks ->
  combinatorial_number_system_forward t (combinatorial_number_system_table N D) = Ok kt ->
  (ks < kt <-> colex_lt s t).
Proof. exact forward_colex. Qed.
Print Assumptions C02_simplex_numbering_colex.

Example C02_nonvacuous :
  simplex 5 2 [1; 2; 3] /\ simplex 5 2 [0; 1; 4] /\ colex_lt [1; 2; 3] [0; 1; 4].
Proof.
  split; [repeat split; repeat constructor|split; [repeat split; repeat constructor|]].
  unfold colex_lt; cbn [rev app]; constructor; repeat constructor.
Qed.

(** C03: the specialised functions agree with the generic one, errors included. *)
Theorem C03_specialised_numbering :
  forall v0 v1 v2 table,
  combinatorial_number_system_d1_forward v0 v1 table =
    combinatorial_number_system_forward [v0; v1] table /\
  combinatorial_number_system_d2_forward v0 v1 v2 table =
    combinatorial_number_system_forward [v0; v1; v2] table.
Proof. intros; split; [apply d1_generic | apply d2_generic]. Qed.
Print Assumptions C03_specialised_numbering.

(** C04: table entries are the binomials; exactly the in-range entries exist. *)
Theorem C04_table_is_binomial :
  forall N D i l,
  (i <= N /\ l <= D + 1 ->
     exists b, lookup IndexError (combinatorial_number_system_table N D) i l = Ok b /\
               is_binomial i l b) /\
  (~ (i <= N /\ l <= D + 1) ->
     lookup IndexError (combinatorial_number_system_table N D) i l = Raise IndexError).
Proof.
  intros N D i l; split.
  - intros [Hi Hl]; exists (comb i l); split; [apply lookup_ok; assumption | apply comb_is_binomial].
  - intros H; rewrite lookup_table_spec.
    destruct (Nat.leb_spec i N), (Nat.leb_spec l (D + 1)); try reflexivity; tauto.
Qed.
Print Assumptions C04_table_is_binomial.

Theorem C04_table_fits_int64 :
  forall N D i l b, (Z.of_nat N <= 100000)%Z -> D <= 3 ->
  lookup IndexError (combinatorial_number_system_table N D) i l = Ok b ->
  (Z.of_nat b < 2 ^ 63)%Z.
Proof.
  intros N D i l b HN HD E; rewrite lookup_table_spec in E.
  destruct (Nat.leb_spec i N), (Nat.leb_spec l (D + 1)); try discriminate E.
  injection E as <-; apply table_fits_int64; lia.
Qed.
Print Assumptions C04_table_fits_int64.

(** Triangle numbers fit the int32 buffers of make_delta1 (utils.py:369-370) up to
    2345 vertices, and no longer at 2346. *)
Theorem C04_triangle_number_fits_int32 :
  (forall N n s k, n <= N -> (Z.of_nat n <= 2345)%Z -> simplex n 2 s ->
     combinatorial_number_system_forward s (combinatorial_number_system_table N 2) = Ok k ->
     (Z.of_nat k < 2 ^ 31)%Z) /\
  (exists s k N, simplex N 2 s /\ (Z.of_nat N = 2346)%Z /\
     combinatorial_number_system_forward s (combinatorial_number_system_table N 2) = Ok k /\
     (2 ^ 31 <= Z.of_nat k)%Z).
Proof.
  split; [|exact triangles_overflow_int32].
  intros N n s k HN Hn Hs E. rewrite (forward_ok N 2 n 2) in E by (assumption || lia).
  injection E as <-. destruct Hs as (L & S1 & F).
  pose proof (rank_lt s n S1 F) as R; rewrite L in R.
  pose proof (triangles_fit_int32 n Hn); lia.
Qed.
Print Assumptions C04_triangle_number_fits_int32.
