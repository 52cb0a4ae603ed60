(** PropRoundCircular.v -- CircularCoords in double precision (C92). *)
From Coq Require Import Reals List ZArith Lia Lra.
From Flocq Require Import Core.
From Verif Require Import Base BaseProofs RealBase RealSum EMModel SpecEM EMProofs PropEM CohomologyModel SpecCohomology ToroidalModel SpecToroidal ToroidalProofs SpecRepair RepairModel LLLModel SpecLLL SpecHarmonic
  GraphExample PropRepairCall PropTheta SpecRound RoundBase RoundModel RoundTorusModel RoundProofs RoundTorusProofs RoundTorusFacts PropRound RoundCover PropCover PropRoundTorus PropRoundPPCA.
Import ListNotations.
Local Open Scope R_scope.

(** CircularCoords with the default bump function and percentage: if the class has an integral lift at
    the rounded threshold [t] and the solver finds existing solutions, the call returns one row, which
    is the circle-valued map of an integer cocycle congruent to the class, up to the stated error;
    if the class has none, the call raises. *)
Theorem C92_circular :
  forall sum_ dot_ ext x n N perc idx (sr : bool) birth death c,
  consistent x n N -> metric x -> sound_numpy ext -> sound_solver ext ->
  (forall A b, Forall double (x_lsqr ext A b)) -> (forall k G L, matrix k k G -> x_cholesky ext G = Ok L -> matrix k k L) ->
  (forall l, added_up l (sum_ l)) -> dot_sound dot_ ->
  class_of x idx birth death c -> cocycle_until x death c ->
  perc = 1 / 2 \/ perc = dbl (9 / 10) -> (forall i b d, entry (em_dist_land_data (t_em x)) i b d -> double d) ->
  double birth -> double death -> 0 <= birth -> birth < death -> bpow radix2 (-1000) <= death -> (if sr then 2 * birth else birth) <= death ->
  let call := circular_get_coordinates_d sum_ dot_ ext x perc idx pu_linear_d sr true in
  exists t, 0 < t <= death /\
    ((~ exists eta, lifts_class x n t c eta) -> snd call = Raise (NoIntegralLift 0)) /\
    (complete_milp (x_milp ext) -> (exists eta, lifts_class x n t c eta) -> exists row, snd call = Ok row) /\
    forall x' row, call = (x', Ok row) ->
      em_rips_threshold (t_em x') = Some t /\ em_r_cover (t_em x') = Some (t / 2) /\
      exists (integral : nat -> R) (eta : nat -> nat -> Z), lifts_class x n t c eta /\
        (forall K B, 0 <= K -> (forall a b, (a < b < n)%nat -> Rabs (IZR (eta a b)) <= K) -> (forall s, (s < n)%nat -> Rabs (integral s) <= B) ->
           nearly_classified_by x N (t / 2) pu_linear_d (combine_error 1 1 (row_error n K B)) row integral eta /\
           forall tol, 0 <= tol -> nearly_least_squares tol (x_lsqr ext) ->
             nearly_harmonic (em_dist_land_land (t_em x)) t eta integral (harmonic_error n tol K B)) /\
        (forall b j l, in_ball (em_dist_land_data (t_em x)) (t / 2) j b -> in_ball (em_dist_land_data (t_em x)) (t / 2) l b ->
           lift x (t / 2) pu_linear_d integral eta j b - lift x (t / 2) pu_linear_d integral eta l b = IZR (eta j l)).
Proof.
  intros sum_ dot_ ext x n N perc idx sr birth death c C Me HE HS Hdl HC Hsum Hdot Hc Hu Hp Dd Db Ddt Hb Hlt Hd St call.
  assert (Hone : forall k b d c', In k [idx] -> class_of x k b d c' -> b = birth /\ d = death /\ c' = c).
  { intros k b d c' [<-|[]] Hc'. apply em_class1 in Hc', Hc. rewrite Hc in Hc'. injection Hc' as <- <- <-. repeat split. }
  destruct (default_radius_m (t_em x) n N perc birth death sr (co_ll _ _ _ C) (co_ld _ _ _ C) Me Dd Hp Db Ddt Hb Hd St) as (t & Ert & Ht & _ & Hf).
  exists t. split; [exact Ht|].
  destruct (C92_one_class_returns sum_ dot_ ext x n N perc idx pu_linear_d sr birth death c C HE Hsum Hc Hlt) as (_ & R2 & R3); [rewrite start_exact by exact Db; exact St|exact Hu| | |].
  { rewrite Ert. cbn [fst]. intros i b d He L. apply and_comm, (Hf i b d He L). }
  { rewrite Ert. apply Ht. }
  rewrite Ert in R2, R3. cbn [snd] in R2, R3. unfold call, circular_get_coordinates_d.
  split; [|split].
  - intros Hno. specialize (R2 HS Hno). destruct (get_coordinates_d _ _ _ _ _ _ _ _ _) as [x' out]. cbn [snd] in *. subst out. reflexivity.
  - intros Hcm Hex. destruct (R3 HS Hcm Hex) as (row & Er). destruct (get_coordinates_d _ _ _ _ _ _ _ _ _) as [x' out]. cbn [snd] in *. subst out. exists row. reflexivity.
  - intros x' row E. destruct (get_coordinates_d sum_ dot_ ext x perc [idx] pu_linear_d sr true) as [x'' [rows|err]] eqn:EG; [|discriminate]. cbn [bind] in E. injection E as -> E.
    destruct rows as [|row0 rows]; [discriminate|]. injection E as ->.
    destruct (C92_default sum_ dot_ ext x n N perc [idx] sr x' (row :: rows) C Me HE HS Hdl HC Hsum Hdot) as (t' & T1 & T2 & _ & _ & Rp); try assumption.
    { intros k b d c' Hk Hc'. destruct (Hone _ _ _ _ Hk Hc') as (-> & -> & ->). exact Hu. }
    { cbn; lia. }
    { intros k b d c' Hk Hc'. destruct (Hone _ _ _ _ Hk Hc') as (-> & -> & ->). repeat split; assumption. }
    assert (t' = t) as ->.
    { destruct (co_classes _ _ _ C) as (dgm & cs & E1 & E2 & L & Fe).
      destruct (call_anatomy_d sum_ dot_ ext x perc [idx] pu_linear_d sr true x' (row :: rows) dgm cs E1 E2 L EG) as
        (reps & birth' & death' & lifted & r & t1 & g & Ereps & Nn & B1 & B2 & D1 & D2 & Lt & St' & Ert' & T1' & _).
      rewrite T1 in T1'. injection T1' as <-. pose proof (proj1 (em_class1 (t_em x) idx birth death c) Hc) as Ec. cbn [map_res bind] in Ereps. rewrite Ec in Ereps. cbn [bind] in Ereps. injection Ereps as <-.
      destruct B1 as [B1|[]]. destruct D1 as [D1|[]]. cbn [fst snd] in B1, D1. subst birth' death'. rewrite Ert in Ert'. injection Ert' as _ ->. reflexivity. }
    split; [exact T1|]. split; [exact T2|]. destruct Rp as (U & integrals & etas & _ & HU & _ & Hcl & Hh & _ & Ln & Hr). specialize (HU eq_refl). subst U.
    destruct (Hcl 0%nat idx eq_refl) as (b & d & c' & Hc' & _ & _ & Hli). destruct (Hone idx b d c' (or_introl eq_refl) Hc') as (-> & -> & ->).
    destruct (Hr 0%nat row eq_refl) as [Hr1 Hr2]. cbn [length] in *.
    assert (EI : forall s, sumn 1 (fun h => IZR (at2 0%Z [[1%Z]] 0 h) * integrals h s) = integrals 0%nat s) by (intros s; cbn; lra).
    assert (EE : forall a b, sumnZ 1 (fun h => (at2 0%Z [[1%Z]] 0 h * etas h a b)%Z) = etas 0%nat a b) by (intros a b; cbn -[Z.mul]; unfold at2; cbn [nth]; lia).
    assert (ES : sumn 1 (fun h => Rabs (IZR (at2 0%Z [[1%Z]] 0 h))) = 1) by (cbn; rewrite Rabs_R1; lra).
    exists (integrals 0%nat), (etas 0%nat).
    assert (LE : forall j b, lift x (t / 2) pu_linear_d (fun s => sumn 1 (fun h => IZR (at2 0%Z [[1%Z]] 0 h) * integrals h s)) (fun a b => sumnZ 1 (fun h => (at2 0%Z [[1%Z]] 0 h * etas h a b)%Z)) j b = lift x (t / 2) pu_linear_d (integrals 0%nat) (etas 0%nat) j b).
    { intros j b. unfold lift. apply sumn_ext. intros i Hi. rewrite EE, EI. reflexivity. }
    split; [exact Hli|]. split.
    + intros K B HK HKe HB. assert (Q1 : forall h a b, (h < 1)%nat -> (a < b < n)%nat -> Rabs (IZR (etas h a b)) <= K) by (intros h a b Hh1 Hab; replace h with 0%nat by lia; apply HKe, Hab).
      assert (Q2 : forall h s, (h < 1)%nat -> (s < n)%nat -> Rabs (integrals h s) <= B) by (intros h s Hh1 Hs; replace h with 0%nat by lia; apply HB, Hs).
      split; [|intros tol Htol Hls; apply (Hh tol K B Htol Hls HK Q1 Q2 0%nat); lia].
      specialize (Hr1 K B HK Q1 Q2). rewrite ES in Hr1. destruct Hr1 as [N1 N2]. split; [exact N1|]. intros b Hb'. destruct (N2 b Hb') as [N3 N4]. split; [|exact N4].
      intros j Hj. destruct (N3 j Hj) as (v & V1 & V2 & V3 & m & V4). rewrite LE in V4. exists v. split; [exact V1|]. split; [exact V2|]. split; [exact V3|]. exists m. exact V4.
    + intros b j l Hj Hl. specialize (Hr2 b j l Hj Hl). rewrite !LE, EE in Hr2. exact Hr2.
Qed.
Print Assumptions C92_circular.

(** The kite of C18, whose class must be repaired: all hypotheses hold and a row is returned. *)
Example C92_circular_case :
  let x := graph 5 kite_edges 3 [kite_class] in
  exists x' row, circular_get_coordinates_d running_sum running_dot rounded_ext x (1 / 2) (PyInt 0) pu_linear_d false true = (x', Ok row) /\
    exists t integral eta, 0 < t <= 2 /\ lifts_class x 5 t kite_class eta /\
      forall K B, 0 <= K -> (forall a b, (a < b < 5)%nat -> Rabs (IZR (eta a b)) <= K) -> (forall s, (s < 5)%nat -> Rabs (integral s) <= B) ->
        nearly_classified_by x 5 (t / 2) pu_linear_d (combine_error 1 1 (row_error 5 K B)) row integral eta.
Proof.
  intros x. destruct C18_call_nonvacuous as (_ & (C & M & _ & Hc & Hu & _ & Hex) & _). fold x in C, M, Hc, Hu, Hex.
  destruct rounded_ext_ok as (HE & HS & HM & HD & HC & _).
  assert (Dd : forall i b d, entry (em_dist_land_data (t_em x)) i b d -> double d).
  { intros i b d H. apply graph_entry in H as (_ & _ & ->). unfold graph_dist. destruct (i =? b)%nat; [|destruct (adj _ _ _)]; apply double_small; cbn; lia. }
  destruct (C92_circular running_sum running_dot rounded_ext x 5 5 (1 / 2) (PyInt 0) false 1 2 kite_class C M HE HS HD HC running_sum_added running_dot_sound Hc Hu) as (t & Ht & _ & R & G); try assumption; try lra.
  all: try (left; reflexivity); try (apply double_small; cbn; lia); try (eapply Rle_trans; [apply (bpow_le radix2 _ 0); lia|cbn; lra]).
  - destruct C92_one_class_case as (x' & row & E & _). fold x in E.
    assert (E' : circular_get_coordinates_d running_sum running_dot rounded_ext x (1 / 2) (PyInt 0) pu_linear_d false true = (x', Ok row)) by (unfold circular_get_coordinates_d; rewrite E; reflexivity).
    exists x', row. split; [exact E'|]. destruct (G x' row E') as (_ & _ & integral & eta & H1 & H2 & _). exists t, integral, eta. split; [exact Ht|]. split; [exact H1|].
    intros K B HK H3 H4. apply (H2 K B HK H3 H4).
Qed.
