(** PropToroidal.v -- C30-C36, C38, C39, C43: ToroidalCoords and CircularCoords. *)
From Coq Require Import Sorted Permutation.
From Verif Require Import Base BaseProofs CombinatorialModel SpecSimplex CombinatorialProofs
  DeltaModel SpecRips RipsProofs DeltaProofs DeltaFacts RealBase RealSum SpecRepair RepairModel RepairProofs
  EMModel SpecEM EMProofs CircleModel SpecCircle CircleProofs LLLModel SpecLLL LLLProofs
  CohomologyModel SpecCohomology CohomologyProofs PropDelta PropRepair PropCohomology PropEM PropCircle PropLLL
  ToroidalModel SpecToroidal ToroidalProofs ToroidalFacts.
Local Open Scope R_scope.

(** C30: integrating with the upper triangle of the matrix of harmonic values gives the value
    computed with the whole antisymmetric matrix [theta]. *)
Theorem C30_upper_triangle_suffices :
  forall x n N f r t harm_rep integral theta,
  consistent x n N -> bump f r -> is_binomial n 2 (length harm_rep) -> length integral = n ->
  (forall i j, theta i j = - theta j i) ->
  (forall i j, (i < j < n)%nat ->
     (close Rltb (em_dist_land_land (t_em x)) t i j -> value_at (t_table x) harm_rep [i; j] (theta i j)) /\
     (~ close Rltb (em_dist_land_land (t_em x)) t i j -> theta i j = 0)) ->
  let (varphi, ball) := get_covering_partition (t_em x) r f in
  exists row, sparse_integrate harm_rep integral varphi ball (em_dist_land_land (t_em x)) t (t_table x) = Ok row /\
    length row = N /\
    forall b k g, (b < N)%nat -> nth_error ball b = Some k -> in_ball (em_dist_land_data (t_em x)) r k b ->
      nth_error integral k = Some g ->
      exists v, nth_error row b = Some (Some v) /\ on_circle v /\
        same_angle v (2 * PI * (g + sumn n (fun s => theta k s * weight_at x r f s b))).
Proof.
  intros x n N f r t h g theta C Hf Lh Lg An Hv. apply is_binomial_comb in Lh.
  destruct (row_ok x n N C f r t Hf h g Lh Lg) as (row & E & Lr & Hr).
  destruct (get_covering_partition (t_em x) r f) as [varphi ball] eqn:Ep; cbn [fst snd] in E, Hr.
  exists row; split; [exact E|]. split; [exact Lr|]. intros b k gk Hb Ek Bk Eg.
  destruct (Hr b Hb) as [R1 _]. eexists; split; [apply (R1 k Ek (ex_intro _ k Bk))|]. split; [apply mod_two_pi_range|].
  eapply same_trans; [apply mod_two_pi_same|]. rewrite (nth_error_nth _ _ 0 Eg).
  rewrite (sumn_ext n _ (fun s => theta k s * weight_at x r f s b)); [apply same_refl|].
  intros s Hs. rewrite (full_value x n N C t h theta Lh An Hv k s); [reflexivity| |exact Hs].
  apply (in_ball_bounds x n N C r k b Bk).
Qed.
Print Assumptions C30_upper_triangle_suffices.

(** C33: rows, range and NaN pattern. *)
Theorem C33_range_and_nan :
  forall ext x n N perc idxs f sr check x' rows,
  consistent x n N -> sound_numpy ext -> sound_cholesky ext -> (forall r, bump f r) ->
  get_coordinates ext x perc idxs f sr check = (x', Ok rows) ->
  length rows = length idxs /\
  exists r, em_r_cover (t_em x') = Some r /\ Forall (range_and_nan x N r) rows.
Proof.
  intros ext x n N perc idxs f sr check x' rows C HE HC Hf E.
  destruct (call_main ext x n N perc idxs f sr check x' rows C HE HC Hf E) as
    (reps & birth & death & t & lifted & vecs & etas & M0 & W & hf & A & U & _ & K1 & _ & _ & _ & _ & _ & _ & _ & _ & T2 & _ & _ & _ & _ & _ & _ & _ & _ & _ & MA & FA & (MU & _) & _ & Elc & _).
  destruct (combine_rows x N (t / 2) A _ U rows K1 MA FA MU Elc) as ([Lr _] & F & _).
  split; [exact Lr|]. exists (t / 2); auto.
Qed.
Print Assumptions C33_range_and_nan.

(** C32 with dense vectors. *)
Lemma represent_vec :
  forall ext x n N perc idxs f sr x' rows,
  consistent x n N -> metric x ->
  sound_numpy ext -> sound_cholesky ext -> sound_solver ext -> (forall r, bump f r) ->
  perc <= 1 ->
  (forall t k birth death c vec, em_rips_threshold (t_em x') = Some t -> t <= death -> In k idxs -> class_of x k birth death c ->
     sparse_cocycle_to_vector (x_argsort ext) c (t_table x) (em_n_landmarks (t_em x)) = Ok vec ->
     one_cocycle_mod Rltb (em_dist_land_land (t_em x)) t (t_table x) (em_prime (t_em x)) vec) ->
  get_coordinates ext x perc idxs f sr true = (x', Ok rows) ->
  let k := length idxs in
  exists t U (integrals : nat -> nat -> R) (etas : nat -> nat -> nat -> Z),
    em_rips_threshold (t_em x') = Some t /\ em_r_cover (t_em x') = Some (t / 2) /\
    (* the integer matrix of the recombination *)
    unimodular k U /\ (k = 1%nat -> U = [[1%Z]]) /\
    ((1 < k)%nat -> t_change_basis x' = Some (map (map IZR) U)) /\
    (* every selected class is represented by an integer cocycle congruent to it mod the prime *)
    (forall h idx, nth_error idxs h = Some idx -> exists birth death c vec etavec,
       class_of x idx birth death c /\ birth < death /\ t <= death /\
       sparse_cocycle_to_vector (x_argsort ext) c (t_table x) n = Ok vec /\
       congruent_mod (em_prime (t_em x)) vec etavec /\
       one_cocycle Rltb (em_dist_land_land (t_em x)) t (t_table x) etavec /\
       antisymmetric (t_table x) n etavec (etas h)) /\
    (* each returned row is the map given by the recombined cocycle, which is the difference of its lifts *)
    length rows = k /\
    (forall i row, nth_error rows i = Some row ->
       let integral := fun s => sumn k (fun h => IZR (at2 0%Z U i h) * integrals h s) in
       let eta := fun a b => sumnZ k (fun h => (at2 0%Z U i h * etas h a b)%Z) in
       classified_by x N (t / 2) f row integral eta /\
       (forall b j l, in_ball (em_dist_land_data (t_em x)) (t / 2) j b -> in_ball (em_dist_land_data (t_em x)) (t / 2) l b ->
          lift x (t / 2) f integral eta j b - lift x (t / 2) f integral eta l b = IZR (eta j l))).
Proof.
  intros ext x n N perc idxs f sr x' rows C Me HE HC (eps & tol & He & Ht & Het & Hm) Hf Hp Hu E k.
  destruct (call_main ext x n N perc idxs f sr true x' rows C HE HC Hf E) as
    (reps & birth & death & t & lifted & vecs & etas & M0 & W & hf & A & U & Ereps & K1 & B1 & B2 & D1 & D2 & Lt & St & Et & T1 & T2 & Fl & Ev & Fv & Frep & E0 & EW & Feta & Ehf & EA & MA & FA & HU & U1 & Elc & _ & Many).
  destruct (co_table _ _ _ C) as (n' & Hn' & ET). specialize (Frep n' Hn' ET).
  destruct (sq_ll x n N C) as [Sq Ln].
  destruct (combine_rows x N (t / 2) A k U rows K1 MA FA (proj1 HU) Elc) as ([Lr _] & _ & Comb).
  assert (Htd : t <= death) by (rewrite Et; destruct sr; nra).
  assert (Cls : forall h idx, nth_error idxs h = Some idx -> exists birth0 death0 c vec etavec,
       class_of x idx birth0 death0 c /\ birth0 < death0 /\ t <= death0 /\
       sparse_cocycle_to_vector (x_argsort ext) c (t_table x) n = Ok vec /\
       congruent_mod (em_prime (t_em x)) vec etavec /\
       one_cocycle Rltb (em_dist_land_land (t_em x)) t (t_table x) etavec /\ nth_error etas h = Some etavec).
  { intros h idx Hh. destruct (map_res_nth _ _ _ _ _ Ereps Hh) as ([[b0 d0] c] & Hrep & Ec).
    destruct (f2_nth _ _ _ _ _ Fl Hrep) as (lc & Hlc & m & Elc'). cbn [snd] in Elc'.
    destruct (map_res_nth _ _ _ _ _ Ev Hlc) as (v & Hv & Evv).
    destruct (f2_nth _ _ _ _ _ Frep Hv) as (e & He' & Rep). cbn beta iota in Rep.
    assert (Ecc : edge_cocycle n c).
    { destruct (co_classes _ _ _ C) as (dgm & cs & G1 & G2 & G3 & G4).
      rewrite (rep_ok _ dgm cs idx G1 G2 G3) in Ec. destruct idx as [z|]; [|discriminate].
      destruct (class_pos (length cs) (PyInt z)) as [q|] eqn:Ep; [|discriminate]. injection Ec as _ <-.
      rewrite Forall_forall in G4. apply G4, nth_In. exact (pos_lt _ _ _ Ep). }
    destruct (edge_vector (x_argsort ext) n n' c (proj1 HE) Hn' Ecc) as (vec & Evec & Lvec). rewrite <- ET in Evec.
    destruct (lifts_vector (x_argsort ext) (em_prime (t_em x)) (t_table x) n (S m) c vec Evec) as (v2 & Ev2 & Cv).
    rewrite <- Elc' in Ev2. rewrite Evv in Ev2; injection Ev2 as <-.
    assert (Hd0 : death <= d0) by (apply D2; apply (in_map (fun r => snd (fst r)) reps (b0, d0, c)); exact (nth_error_In _ _ Hrep)).
    assert (Hb0 : b0 <= birth) by (apply B2; apply (in_map (fun r => fst (fst r)) reps (b0, d0, c)); exact (nth_error_In _ _ Hrep)).
    assert (Hmod : one_cocycle_mod Rltb (em_dist_land_land (t_em x)) t (t_table x) (em_prime (t_em x)) vec).
    { apply (Hu t idx b0 d0 c vec T1 ltac:(lra) (nth_error_In _ _ Hh) (proj2 (em_class1 _ _ _ _ _) Ec)). rewrite (co_landmarks _ _ _ C); exact Evec. }
    rewrite ET in Hmod. pose proof (co_pos _ _ _ C) as HP. pose proof (co_prime _ _ _ C) as Hpr.
    pose proof (lift_mod_cocycle Rltb _ t n' _ vec v ltac:(rewrite Ln; exact Hn') Cv ltac:(rewrite Ln; exact Lvec) Hmod) as Hmv.
    assert (Hn2 : (Z.of_nat (length (em_dist_land_land (t_em x))) <= 2345)%Z) by (rewrite Ln; lia).
    assert (Hpp : (0 < em_prime (t_em x))%Z) by lia.
    rewrite Forall_forall in Fv. pose proof (Fv v (nth_error_In _ _ Hv)) as Lv.
    destruct (repaired_sound _ t n' (x_junk ext) _ (x_milp ext) Sq ltac:(rewrite Ln; exact Hn') v e eps tol Hn2 Hpp He Ht Het Hm
       ltac:(rewrite Ln; exact Lv) Hmv Rep) as [S1 S2].
    exists b0, d0, c, vec, e. rewrite <- ET in S1. split; [exact (proj2 (em_class1 _ _ _ _ _) Ec)|]. repeat split; try assumption; try lra. eapply cong_trans; eassumption. }
  exists t, U, (fun h s => nth s (snd (nth h hf ([], []))) 0), (fun h => eta_of (nth h etas [])).
  split; [exact T1|]. split; [exact T2|]. split; [exact HU|].
  split; [intros H1; destruct (U1 H1) as [-> _]; reflexivity|].
  split; [intros H1; destruct (Many H1) as (gm & L & B' & _ & _ & _ & _ & _ & _ & _ & _ & G); exact G|].
  split.
  { intros h idx Hh. destruct (Cls h idx Hh) as (b0 & d0 & c & vec & e & G1 & G2 & G3 & G4 & G5 & G6 & G7).
    exists b0, d0, c, vec, e. repeat match goal with |- _ /\ _ => split; [assumption|] end.
    rewrite (nth_error_nth _ _ [] G7). apply (eta_of_anti x n N C).
    rewrite Forall_forall in Feta; apply Feta, (nth_error_In _ _ G7). }
  split; [exact Lr|].
  assert (Each : forall h row, nth_error A h = Some row -> classified_by x N (t / 2) f row (fun s => nth s (snd (nth h hf ([], []))) 0) (eta_of (nth h etas [])) /\
    (forall b j l, in_ball (em_dist_land_data (t_em x)) (t / 2) j b -> in_ball (em_dist_land_data (t_em x)) (t / 2) l b ->
          lift x (t / 2) f (fun s => nth s (snd (nth h hf ([], []))) 0) (eta_of (nth h etas [])) j b -
          lift x (t / 2) f (fun s => nth s (snd (nth h hf ([], []))) 0) (eta_of (nth h etas [])) l b = IZR (eta_of (nth h etas []) j l))).
  { intros h row Hrow. pose proof EA as EA'. apply map_res_ok2 in EA'. destruct (f2_nth2 _ _ _ _ _ EA' Hrow) as ([hh g] & Hh & Es). cbn [fst snd] in Es.
    pose proof Ehf as Ehf'. apply map_res_ok2 in Ehf'. destruct (f2_nth2 _ _ _ _ _ Ehf' Hh) as (e & He' & Ei).
    assert (Le : length e = comb n 2) by (rewrite Forall_forall in Feta; apply Feta, (nth_error_In _ _ He')).
    assert (Hidx : exists idx, nth_error idxs h = Some idx).
    { destruct (nth_error idxs h) as [idx|] eqn:Ei2; [exists idx; reflexivity|]. apply nth_error_None in Ei2.
      apply some_lt in Hrow. destruct MA; lia. }
    destruct Hidx as (idx & Hidx). destruct (Cls h idx Hidx) as (b0 & d0 & c & vec & e2 & _ & _ & _ & _ & _ & G6 & G7).
    rewrite He' in G7; injection G7 as <-.
    rewrite (nth_error_nth _ _ [] He'), (nth_error_nth _ _ ([], []) Hh); cbn [snd].
    destruct (class_row x n N C f (t / 2) t (Hf _) ext (x_junk ext) M0 W e hh g (eta_of e) row (proj2 HE) E0 EW Le Ei
       (eta_of_anti x n N C e Le) Es Me ltac:(lra) G6) as (R1 & R2 & _).
    split; assumption. }
  intros i row Hi integral eta. split.
  - apply (Comb f (fun h s => nth s (snd (nth h hf ([], []))) 0) (fun h => eta_of (nth h etas [])) (fun h row H => proj1 (Each h row H)) i row Hi).
  - intros b j l Hj Hl. unfold integral, eta. rewrite !lift_combination, <- sumn_sub, sumnZ_IZR. apply sumn_ext; intros h Hh.
    destruct (nth_error A h) as [rw|] eqn:Er; [|apply nth_error_None in Er; destruct MA as [LA _]; fold k in LA; lia].
    rewrite mult_IZR; cbv beta; rewrite <- (proj2 (Each h rw Er) b j l Hj Hl). change (fun a c => eta_of (nth h etas []) a c) with (eta_of (nth h etas [])); ring.
Qed.

(** C32: the coordinates represent the selected classes. *)
Theorem C32_coordinates_represent_the_classes :
  forall ext x n N perc idxs f sr x' rows,
  consistent x n N -> metric x ->
  sound_numpy ext -> sound_cholesky ext -> sound_solver ext -> (forall r, bump f r) ->
  perc <= 1 -> cocycles_until_death x idxs ->
  get_coordinates ext x perc idxs f sr true = (x', Ok rows) ->
  let k := length idxs in
  exists t U (integrals : nat -> nat -> R) (etas : nat -> nat -> nat -> Z),
    em_rips_threshold (t_em x') = Some t /\ em_r_cover (t_em x') = Some (t / 2) /\
    (* the integer matrix of the recombination *)
    unimodular k U /\ (k = 1%nat -> U = [[1%Z]]) /\
    ((1 < k)%nat -> t_change_basis x' = Some (map (map IZR) U)) /\
    (* every selected class is represented by an integer cocycle congruent to it mod the prime *)
    (forall h idx, nth_error idxs h = Some idx -> exists birth death c,
       class_of x idx birth death c /\ birth < death /\ t <= death /\ lifts_class x n t c (etas h)) /\
    (* each returned row is the map given by the recombined cocycle, which is the difference of its lifts *)
    length rows = k /\
    (forall i row, nth_error rows i = Some row ->
       let integral := fun s => sumn k (fun h => IZR (at2 0%Z U i h) * integrals h s) in
       let eta := fun a b => sumnZ k (fun h => (at2 0%Z U i h * etas h a b)%Z) in
       classified_by x N (t / 2) f row integral eta /\
       (forall b j l, in_ball (em_dist_land_data (t_em x)) (t / 2) j b -> in_ball (em_dist_land_data (t_em x)) (t / 2) l b ->
          lift x (t / 2) f integral eta j b - lift x (t / 2) f integral eta l b = IZR (eta j l))).
Proof.
  intros ext x n N perc idxs f sr x' rows C Me HE HC HS Hf Hp Hu E k.
  destruct (represent_vec ext x n N perc idxs f sr x' rows C Me HE HC HS Hf Hp) as (t & U & ints & etas & G1 & G2 & G3 & G4 & G5 & G6 & G7 & G8); [|exact E|].
  - intros t0 k0 b0 d0 c0 v0 _ Ht0 I0 H0 Ev0. exact (until_vec x n N C ext HE d0 c0 (class_edge_cocycle x n N C _ _ _ _ H0) (Hu _ _ _ _ I0 H0) t0 v0 Ht0 Ev0).
  - exists t, U, ints, etas. repeat match goal with |- _ /\ _ => split; [assumption|] end. split; [|split; [exact G7|exact G8]].
    intros h idx Hh. destruct (G6 h idx Hh) as (b0 & d0 & c & vec & etavec & K1 & K2 & K3 & K4 & K5 & K6 & K7).
    exists b0, d0, c. repeat match goal with |- _ /\ _ => split; [assumption|] end.
    exact (vec_lifts x n N C ext HE c t vec etavec (etas h) (class_edge_cocycle x n N C _ _ _ _ K1) K4 K5 K6 K7).
Qed.
Print Assumptions C32_coordinates_represent_the_classes.

(** C43: CircularCoords is ToroidalCoords with one class. *)
Theorem C43_circular_is_toroidal_with_one_class :
  forall ext x n N perc idx f sr check,
  consistent x n N -> sound_numpy ext -> sound_cholesky ext -> (forall r, bump f r) ->
  let toroidal := get_coordinates ext x perc [idx] f sr check in
  let circular := circular_get_coordinates ext x perc idx f sr check in
  fst circular = fst toroidal /\
  (forall row, snd circular = Ok row <-> snd toroidal = Ok [row]) /\
  (forall err, snd circular = Raise err <-> snd toroidal = Raise err).
Proof.
  intros ext x n N perc idx f sr check C HE HC Hf toroidal circular.
  assert (G : forall rows, snd toroidal = Ok rows -> exists row, rows = [row]).
  { intros rows Er. destruct (C33_range_and_nan ext x n N perc [idx] f sr check (fst toroidal) rows C HE HC Hf) as [L _].
    - rewrite <- Er; unfold toroidal; apply surjective_pairing.
    - destruct rows as [|row [|]]; try discriminate L. exists row; reflexivity. }
  subst circular; unfold circular_get_coordinates; fold toroidal.
  destruct toroidal as [x' [rows|err0]]; cbn [fst snd bind] in *.
  - destruct (G rows eq_refl) as (row & ->). split; [reflexivity|]. split.
    + intros r; split; intros H; injection H as <-; reflexivity.
    + intros err; split; discriminate.
  - split; [reflexivity|]. split; [intros; split; discriminate|]. intros err; split; intros H; injection H as <-; reflexivity.
Qed.
Print Assumptions C43_circular_is_toroidal_with_one_class.

(** C32 for CircularCoords. *)
Theorem C32_circular_coordinates_represent_the_class :
  forall ext x n N perc idx f sr x' row birth death c,
  consistent x n N -> metric x ->
  sound_numpy ext -> sound_cholesky ext -> sound_solver ext -> (forall r, bump f r) ->
  perc <= 1 -> class_of x idx birth death c -> cocycle_until x death c ->
  circular_get_coordinates ext x perc idx f sr true = (x', Ok row) ->
  exists t integral eta,
    em_rips_threshold (t_em x') = Some t /\ em_r_cover (t_em x') = Some (t / 2) /\
    birth < death /\ t <= death /\ lifts_class x n t c eta /\
    classified_by x N (t / 2) f row integral eta /\
    (forall b j l, in_ball (em_dist_land_data (t_em x)) (t / 2) j b -> in_ball (em_dist_land_data (t_em x)) (t / 2) l b ->
       lift x (t / 2) f integral eta j b - lift x (t / 2) f integral eta l b = IZR (eta j l)).
Proof.
  intros ext x n N perc idx f sr x' row birth death c C Me HE HC HS Hf Hp Hcl Hu E.
  destruct (C43_circular_is_toroidal_with_one_class ext x n N perc idx f sr true C HE HC Hf) as (F1 & F2 & _).
  rewrite E in F1, F2; cbn [fst snd] in F1, F2. pose proof (proj1 (F2 row) eq_refl) as F3.
  assert (ET : get_coordinates ext x perc [idx] f sr true = (x', Ok [row])) by (rewrite F1, <- F3; apply surjective_pairing).
  assert (Hu' : cocycles_until_death x [idx]).
  { intros k b0 d0 c0 [<-|[]] Hc. apply em_class1 in Hcl, Hc. rewrite Hcl in Hc; injection Hc as <- <- <-; exact Hu. }
  destruct (C32_coordinates_represent_the_classes ext x n N perc [idx] f sr x' [row] C Me HE HC HS Hf Hp Hu' ET)
    as (t & U & ints & etas & T1 & T2 & _ & HU & _ & Hc & _ & Hr).
  destruct (Hc 0%nat idx eq_refl) as (b0 & d0 & c0 & G1 & G2 & G3 & G4).
  apply em_class1 in Hcl, G1. rewrite Hcl in G1; injection G1 as <- <- <-.
  destruct (Hr 0%nat row eq_refl) as [R1 R2]. rewrite (HU eq_refl) in R1, R2.
  exists t, (ints 0%nat), (etas 0%nat).
  assert (El : forall j b, lift x (t / 2) f (fun s => sumn 1 (fun h => IZR (at2 0%Z [[1%Z]] 0 h) * ints h s))
     (fun a b => sumnZ 1 (fun h => (at2 0%Z [[1%Z]] 0 h * etas h a b)%Z)) j b = lift x (t / 2) f (ints 0%nat) (etas 0%nat) j b).
  { intros j b; unfold lift; apply sumn_ext; intros s _. change (at2 0%Z [[1%Z]] 0 0) with 1%Z.
    cbn [sumn sumnZ]. change (at2 0%Z [[1%Z]] 0 0) with 1%Z. f_equal. f_equal; [ring|]. f_equal; ring. }
  repeat match goal with |- _ /\ _ => split; [assumption|] end. split.
  - destruct R1 as [L1 R1]. split; [exact L1|]. intros b Hb; destruct (R1 b Hb) as [R3 R4]. split; [|exact R4].
    intros j Hj; destruct (R3 j Hj) as (v & V1 & V2 & V3). exists v; rewrite El in V3; auto.
  - intros b j l Hj Hl. specialize (R2 b j l Hj Hl). rewrite !El in R2. rewrite R2. f_equal.
    cbn [length sumnZ]; unfold at2; cbn [nth]; ring.
Qed.
Print Assumptions C32_circular_coordinates_represent_the_class.

(** C31: the coordinate can be computed at any landmark covering the point.  [integral] and
    [harm_rep] are the answer of the solver for the integer cocycle used and the harmonic
    representative; [theta] is any antisymmetric matrix with the values of [harm_rep]. *)
Theorem C31_any_covering_landmark :
  forall ext x n N perc idx f sr x' row birth death c,
  consistent x n N -> metric x ->
  sound_numpy ext -> sound_cholesky ext -> sound_solver ext -> (forall r, bump f r) ->
  perc <= 1 -> class_of x idx birth death c -> cocycle_until x death c ->
  circular_get_coordinates ext x perc idx f sr true = (x', Ok row) ->
  exists t etavec delta0 W harm_rep integral,
    em_rips_threshold (t_em x') = Some t /\ em_r_cover (t_em x') = Some (t / 2) /\
    one_cocycle Rltb (em_dist_land_land (t_em x)) t (t_table x) etavec /\
    make_delta0 Rltb (x_junk ext) (em_dist_land_land (t_em x)) t (t_table x) = Ok delta0 /\
    make_inner_product Rltb (x_junk ext) (em_dist_land_land (t_em x)) t (t_table x) = Ok W /\
    integrate_harmonic_representative (x_lsqr ext) etavec delta0 (snd W) = Ok (harm_rep, integral) /\
    forall theta,
      (forall i j, theta i j = - theta j i) ->
      (forall i j, (i < j < n)%nat ->
         (close Rltb (em_dist_land_land (t_em x)) t i j -> value_at (t_table x) harm_rep [i; j] (theta i j)) /\
         (~ close Rltb (em_dist_land_land (t_em x)) t i j -> theta i j = 0)) ->
      forall b j g, in_ball (em_dist_land_data (t_em x)) (t / 2) j b -> nth_error integral j = Some g ->
        exists v, nth_error row b = Some (Some v) /\ on_circle v /\
          same_angle v (2 * PI * (g + sumn n (fun s => theta j s * weight_at x (t / 2) f s b))).
Proof.
  intros ext x n N perc idx f sr x' row birth death c C Me HE HC HS Hf Hp Hcl Hu E.
  pose proof (until_vec x n N C ext HE death c (class_edge_cocycle x n N C _ _ _ _ Hcl) Hu) as Hu'.
  destruct (circular_parts ext x n N perc idx f sr x' row birth death c C HE HC HS Hf Hp Hcl Hu' E)
    as (t & vec & etavec & M0 & W & h & g & T1 & T2 & _ & _ & _ & _ & Hc & Le & E0 & EW & Ei & Es).
  exists t, etavec, M0, W, h, g. repeat match goal with |- _ /\ _ => split; [assumption|] end.
  intros theta An Hv b j gj Hj Hg.
  destruct (class_row x n N C f (t / 2) t (Hf _) ext (x_junk ext) M0 W etavec h g (eta_of etavec) row (proj2 HE) E0 EW Le Ei
       (eta_of_anti x n N C etavec Le) Es Me ltac:(lra) Hc) as ([_ R1] & _ & R3).
  destruct (in_ball_bounds x n N C _ j b Hj) as [Bj Bb]. destruct (R1 b Bb) as [H _].
  destruct (H j Hj) as (v & V1 & V2 & V3). exists v; split; [exact V1|]. split; [exact V2|].
  eapply same_trans; [exact V3|]. rewrite (R3 b j Hj), (nth_error_nth _ _ 0 Hg).
  destruct (harmonic_value x n N C t ext (x_junk ext) M0 W etavec h g _ (proj2 HE) E0 EW Le Ei (eta_of_anti x n N C etavec Le)) as (_ & Lh & _).
  rewrite (sumn_ext n _ (fun s => theta j s * weight_at x (t / 2) f s b)); [apply same_refl|].
  intros s Hs. rewrite (full_value x n N C t h theta Lh An Hv j s Bj Hs); reflexivity.
Qed.
Print Assumptions C31_any_covering_landmark.
