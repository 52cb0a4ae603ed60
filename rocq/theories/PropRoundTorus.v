(** PropRoundTorus.v -- C92: ToroidalCoords.get_coordinates in double precision. *)
From Coq Require Import Reals Lra Lia ZArith List Permutation Psatz.
From Flocq Require Import Core.
From Verif Require Import Base BaseProofs CombinatorialModel SpecSimplex CombinatorialProofs
  DeltaModel SpecRips RipsProofs DeltaProofs DeltaFacts RealBase RealSum SpecRepair RepairModel RepairProofs
  EMModel SpecEM EMProofs CircleModel SpecCircle CircleProofs LLLModel SpecLLL LLLProofs
  CohomologyModel SpecCohomology CohomologyProofs
  ToroidalModel SpecToroidal ToroidalProofs ToroidalFacts SpecRound RoundBase RoundModel RoundProofs RoundCover RoundLLL RoundTorusModel RoundTorusProofs SpecHarmonic HarmonicProofs RoundHarmonic RoundGram PropRound PropCover RoundTorusFacts ToroidalTotal Argsort LeastSquares GraphExample PropTheta PropRepairCall.
Import ListNotations.
Local Open Scope R_scope.

Lemma sumn_term n f k : (forall i, 0 <= f i) -> (k < n)%nat -> f k <= sumn n f.
Proof.
  intros H Hk. apply sumn_ge; [exact Hk|intros; apply H].
Qed.

(** The coordinates computed in double precision represent the selected classes: there are integer
    cocycles congruent to the classes mod the prime and a recombination by an integer matrix with
    integer inverse such that each returned row is the circle-valued map with the lifts given by
    the recombined cocycle, up to an explicit rounding error.  [r] and [t] are the radius and the
    threshold the call stored. *)
Theorem C92_classes_up_to_rounding :
  forall sum_ dot_ ext x n N perc idxs f sr x' rows r t,
  consistent x n N -> sound_numpy ext -> sound_solver ext ->
  (* the external routines: least squares returns doubles, Cholesky a matrix of the right shape,
     sums are sums in some order, inner products have the usual error bound *)
  (forall A b, Forall double (x_lsqr ext A b)) -> (forall k G L, matrix k k G -> x_cholesky ext G = Ok L -> matrix k k L) ->
  (forall l, added_up l (sum_ l)) -> dot_sound dot_ ->
  cocycles_until_death x idxs -> (Z.of_nat (length idxs) <= 2 ^ 50)%Z ->
  get_coordinates_d sum_ dot_ ext x perc idxs f sr true = (x', Ok rows) ->
  em_rips_threshold (t_em x') = Some t -> em_r_cover (t_em x') = Some r ->
  (* the bump function does not underflow, and rounding did not spoil the radius *)
  (forall i b d, entry (em_dist_land_data (t_em x)) i b d -> d < r -> 0 < f d r /\ double (f d r)) ->
  overlaps_joined x r t -> (forall k birth death c, In k idxs -> class_of x k birth death c -> t <= death) ->
  rounded_representation (x_lsqr ext) x x' n N idxs f rows r t.
Proof.
  intros sum_ dot_ ext x n N perc idxs f sr x' rows r0 t0 C HE (eps & tol & He & Ht & Het & Hm) Hdl HC Hsum Hdot Hu Hk2 E ET0 ER0 Hf Joined Htd. cbv beta delta [rounded_representation]. intros k.
  destruct (co_classes _ _ _ C) as (dgm & cs & E1 & E2 & L & Fe).
  destruct (call_anatomy_d sum_ dot_ ext x perc idxs f sr true x' rows dgm cs E1 E2 L E) as
    (reps & birth & death & lifted & r & t & g & Ereps & Nn & B1 & B2 & D1 & D2 & Lt & St & Ert & T1 & T2 & Fl & Ec & Gs).
  rewrite T1 in ET0; injection ET0 as <-. rewrite T2 in ER0; injection ER0 as <-.
  assert (Lreps : length reps = length idxs) by (apply (map_res_length _ _ _ Ereps)). pose proof (f2_length Fl) as Ll.
  destruct (coordinates_d_inv _ _ _ _ _ _ _ _ _ _ _ _ Ec) as (M0 & vecs & etas & W & hf & A & E0 & Ev & Eeta & EW & Ehf & EA & One & Many).
  destruct (co_table _ _ _ C) as (n0 & Hn0 & ET). destruct (sq_ll x n N C) as [Sq Ln].
  assert (Fl' : Forall (edge_cocycle n) lifted).
  { apply Forall_forall; intros c Hc. apply In_nth_error in Hc; destruct Hc as (i & Hi).
    destruct (f2_nth2 _ _ _ _ _ Fl Hi) as (rep & Hrep & m & ->). apply lifts_edge.
    apply (reps_char _ dgm cs idxs reps E1 E2 L) in Ereps; destruct Ereps as [F ->].
    rewrite nth_error_map in Hrep. destruct (nth_error idxs i) as [q0|] eqn:Ek; [|discriminate]. cbn in Hrep; injection Hrep as <-. cbn [snd].
    rewrite Forall_forall in F, Fe. specialize (F q0 (nth_error_In _ _ Ek)). unfold posn.
    destruct (class_pos (length cs) q0) as [q|] eqn:Ep; [|congruence]. apply Fe, nth_In.
    destruct q0; cbn in Ep; [exact (pos_lt _ _ _ Ep)|discriminate]. }
  destruct (vecs_ok x n N ext C HE lifted Fl') as (vecs' & Ev' & Fv). rewrite Ev in Ev'; injection Ev' as <-.
  pose proof (map_res_length _ _ _ Ev) as Lv.
  assert (Frep : forall n', (n <= n')%nat -> t_table x = combinatorial_number_system_table n' 2 ->
      Forall2 (fun v e => repaired (em_dist_land_land (t_em x)) t n' (x_junk ext) (em_prime (t_em x)) (x_milp ext) v e) vecs etas).
  { intros n' Hn' ET'. rewrite ET' in Eeta. apply repair_all_inv in Eeta; [exact Eeta|exact Sq|lia|rewrite Ln; exact Fv]. }
  assert (Feta : Forall (fun v => length v = comb n 2) etas).
  { apply Forall_forall; intros e He'; apply In_nth_error in He'; destruct He' as (i & Hi).
    destruct (f2_nth2 _ _ _ _ _ (Frep n0 Hn0 ET) Hi) as (v & Hv & Hr). rewrite Forall_forall in Fv. pose proof (Fv v (nth_error_In _ _ Hv)) as Lvv.
    apply repaired_length in Hr; congruence. }
  pose proof (f2_length (Frep n0 Hn0 ET)) as Le.
  assert (Lk : length etas = k) by (unfold k; congruence).
  assert (K1 : (1 <= k)%nat) by (unfold k; destruct idxs; [congruence|cbn; lia]).
  assert (LA : length A = k) by (rewrite (map_res_length _ _ _ EA), (map_res_length _ _ _ Ehf); exact Lk).
  assert (Cls : forall h idx, nth_error idxs h = Some idx -> exists birth0 death0 c etavec,
       class_of x idx birth0 death0 c /\ birth0 < death0 /\ t <= death0 /\ nth_error etas h = Some etavec /\
       one_cocycle Rltb (em_dist_land_land (t_em x)) t (t_table x) etavec /\ lifts_class x n t c (eta_of etavec)).
  { intros h idx Hh. destruct (map_res_nth _ _ _ _ _ Ereps Hh) as ([[b0 d0] c] & Hrep & Ecl).
    destruct (f2_nth _ _ _ _ _ Fl Hrep) as (lc & Hlc & m & Elc'). cbn [snd] in Elc'.
    destruct (map_res_nth _ _ _ _ _ Ev Hlc) as (v & Hv & Evv). rewrite (co_landmarks _ _ _ C) in Evv.
    destruct (f2_nth _ _ _ _ _ (Frep n0 Hn0 ET) Hv) as (e & He' & _).
    pose proof (proj2 (em_class1 (t_em x) idx b0 d0 c) Ecl) as Hcl. change (class_of x idx b0 d0 c) in Hcl.
    pose proof (class_edge_cocycle x n N C _ _ _ _ Hcl) as Eg.
    pose proof (Htd idx b0 d0 c (nth_error_In _ _ Hh) Hcl) as Hd.
    destruct (class_parts ext x n N t idx d0 b0 c lc (S m) v e eps tol C HE He Ht Het Hm Hcl
      (until_vec x n N C ext HE d0 c Eg (Hu _ _ _ _ (nth_error_In _ _ Hh) Hcl)) Hd Elc' Evv) as (vec & Y1 & Y2 & Y3).
    { intros n' Hn' ET'. destruct (f2_nth _ _ _ _ _ (Frep n' Hn' ET') Hv) as (e2 & He2 & Rep). rewrite He' in He2; injection He2 as <-. exact Rep. }
    assert (Lee : length e = comb n 2) by (rewrite Forall_forall in Feta; apply Feta, (nth_error_In _ _ He')).
    exists b0, d0, c, e. split; [exact Hcl|].
    assert (Hd0 : death <= d0) by (apply D2; apply (in_map (fun r => snd (fst r)) reps (b0, d0, c)); exact (nth_error_In _ _ Hrep)).
    assert (Hb0 : b0 <= birth) by (apply B2; apply (in_map (fun r => fst (fst r)) reps (b0, d0, c)); exact (nth_error_In _ _ Hrep)).
    split; [lra|]. split; [exact Hd|]. split; [exact He'|]. split; [exact Y3|].
    exact (vec_lifts x n N C ext HE c t vec e (eta_of e) Eg Y1 Y2 Y3 (eta_of_anti x n N C e Lee)). }
  set (ints := fun (h s : nat) => nth s (snd (nth h hf ([], []))) 0). set (ets := fun h => eta_of (nth h etas [])).
  assert (HU : exists U, unimodular k U /\ (k = 1%nat -> U = [[1%Z]] /\ rows = A) /\ Forall (Forall (fun z => (Z.abs z <= 2 ^ 53)%Z)) U /\
    ((1 < k)%nat -> t_change_basis x' = Some (map (map IZR) U) /\ linear_combination_d dot_ A U = Ok rows /\
       exists gm, gram_matrix_d sum_ dot_ (map fst hf) (fst W) = Ok gm /\ t_original_gram x' = Some gm)).
  { destruct (Nat.eq_dec k 1) as [H1|H1].
    - destruct (One ltac:(lia)) as [-> _]. exists (zmat_id 1). split; [rewrite H1; apply unimodular_id|]. split; [split; reflexivity|]. split; [repeat constructor; cbn; lia|lia].
    - destruct (Many ltac:(lia)) as (gm & Lm & B' & U & Eg & Ech & El & Elc & Eg0).
      pose proof (gram_shape_d _ _ _ _ _ Eg) as Mg. rewrite map_length, (map_res_length _ _ _ Ehf), Lk in Mg.
      destruct (C90_unimodular _ _ _ _ _ _ _ (HC _ _ _ Mg Ech) El) as [HU HB].
      exists U. split; [exact HU|]. split; [intros; contradiction|]. split; [exact HB|]. intros _. destruct (Gs _ _ _ Eg0) as [Gs1 Gs2]. split; [exact Gs1|]. split; [exact Elc|]. exists gm. split; [exact Eg|exact Gs2]. }
  destruct HU as (U & HU & U1 & UB & UM).
  assert (Each : forall h row, nth_error A h = Some row ->
    (forall K B, 0 <= K -> (forall h a b, (h < k)%nat -> (a < b < n)%nat -> Rabs (IZR (ets h a b)) <= K) ->
       (forall h s, (h < k)%nat -> (s < n)%nat -> Rabs (ints h s) <= B) ->
       nearly_classified_by x N r f (row_error n K B) row (ints h) (ets h)) /\
    (forall b j l, in_ball (em_dist_land_data (t_em x)) r j b -> in_ball (em_dist_land_data (t_em x)) r l b ->
       lift x r f (ints h) (ets h) j b - lift x r f (ints h) (ets h) l b = IZR (ets h j l))).
  { intros h row Hrow. pose proof EA as EA'. apply map_res_ok2 in EA'. destruct (f2_nth2 _ _ _ _ _ EA' Hrow) as ([hh gg] & Hh & Es). cbn [fst snd] in Es.
    pose proof Ehf as Ehf'. apply map_res_ok2 in Ehf'. destruct (f2_nth2 _ _ _ _ _ Ehf' Hh) as (e & He' & Ei).
    assert (Lee : length e = comb n 2) by (rewrite Forall_forall in Feta; apply Feta, (nth_error_In _ _ He')).
    assert (Hhk : (h < k)%nat) by (rewrite <- LA; apply (some_lt _ _ _ Hrow)).
    destruct (nth_error idxs h) as [idx|] eqn:Hidx; [|apply nth_error_None in Hidx; unfold k in Hhk; lia].
    destruct (Cls h idx Hidx) as (b0 & d0 & c & e2 & _ & _ & _ & G7 & G6 & _). rewrite He' in G7; injection G7 as <-.
    assert (Eint : ints h = fun s => nth s gg 0) by (unfold ints; rewrite (nth_error_nth _ _ ([], []) Hh); reflexivity).
    assert (Eets : ets h = eta_of e) by (unfold ets; rewrite (nth_error_nth _ _ [] He'); reflexivity).
    pose proof (fun K B => row_d sum_ dot_ x n N Hsum Hdot C f r t Hf ext (x_junk ext) M0 W e hh gg (eta_of e) row K B
       (fun A b => conj (proj2 HE A b) (Hdl A b)) E0 EW Lee Ei (eta_of_anti x n N C e Lee) Es Joined G6) as RD.
    split.
    - intros K B K0 HK HB. rewrite Eint, Eets. apply RD; [exact K0| |].
      + intros i j Hij. rewrite <- Eets. apply HK; assumption.
      + intros s Hs. specialize (HB h s Hhk Hs). rewrite Eint in HB. exact HB.
    - rewrite Eint, Eets.
      (* some bounds exist *)
      set (K := sumn n (fun a => sumn n (fun b => Rabs (IZR (eta_of e a b))))). set (B := sumn n (fun s => Rabs (nth s gg 0))).
      refine (proj2 (RD K B _ _ _)).
      + apply sumn_nonneg; intros; apply sumn_nonneg; intros; apply Rabs_pos.
      + intros i j Hij. unfold K. eapply Rle_trans; [|apply (sumn_term n (fun a => sumn n (fun b => Rabs (IZR (eta_of e a b)))) i); [intros; apply sumn_nonneg; intros; apply Rabs_pos|lia]].
        apply (sumn_term n (fun b => Rabs (IZR (eta_of e i b))) j); [intros; apply Rabs_pos|lia].
      + intros s Hs. apply (sumn_term n (fun s => Rabs (nth s gg 0)) s); [intros; apply Rabs_pos|exact Hs]. }
  exists U, ints, ets. split; [exact HU|]. split; [intros H1; apply (U1 H1)|]. split; [intros H1; apply (UM H1)|].
  split. { intros h idx Hh. destruct (Cls h idx Hh) as (b0 & d0 & c & e & G1 & G2 & G3 & G4 & _ & G6). exists b0, d0, c. unfold ets. rewrite (nth_error_nth _ _ [] G4). auto. }
  split.
  { intros tl K B T0 Hls K0 HK HB h Hh. destruct (nth_error hf h) as [[hh gg]|] eqn:Ehh; [|apply nth_error_None in Ehh; rewrite (map_res_length _ _ _ Ehf) in Ehh; lia].
    pose proof Ehf as Ehf'. apply map_res_ok2 in Ehf'. destruct (f2_nth2 _ _ _ _ _ Ehf' Ehh) as (e & He' & Ei).
    assert (Lee : length e = comb n 2) by (rewrite Forall_forall in Feta; apply Feta, (nth_error_In _ _ He')).
    assert (Eint : ints h = fun s => nth s gg 0) by (unfold ints; rewrite (nth_error_nth _ _ ([], []) Ehh); reflexivity).
    assert (Eets : ets h = eta_of e) by (unfold ets; rewrite (nth_error_nth _ _ [] He'); reflexivity).
    rewrite Eint, Eets. pose proof E0 as E0'. pose proof EW as EW'. rewrite ET in E0', EW'. pose proof (n_small x n N C) as (NS & _ & _).
    replace (harmonic_error n tl K B) with (harmonic_error (length (em_dist_land_land (t_em x))) tl K B) by (rewrite Ln; reflexivity).
    refine (harmonic_d sum_ (em_dist_land_land (t_em x)) t n0 Hsum Sq ltac:(lia) _ (x_lsqr ext) tl e (x_junk ext) M0 W hh gg (eta_of e) K B (proj2 HE) Hls T0 E0' EW' ltac:(congruence) Ei _ K0 _ _).
    - rewrite Ln. apply le_IZR. rewrite <- INR_IZR_INZ. lra.
    - rewrite Ln. intros i j Hij. destruct (eta_of_anti x n N C e Lee) as [_ Hv]. specialize (Hv i j Hij). rewrite ET in Hv.
      rewrite (value_at_rank (em_dist_land_land (t_em x)) n0 2 ltac:(lia) e 1) in Hv by (lia || (apply simplex2; lia)). apply (nth_error_nth _ _ 0%Z) in Hv. exact Hv.
    - rewrite Ln. intros i j Hij. rewrite <- Eets. apply HK; assumption.
    - rewrite Ln. intros i Hi. specialize (HB h i Hh Hi). rewrite Eint in HB. exact HB. }
  split.
  { intros H1. destruct (UM H1) as (_ & _ & gm & Eg & Go). exists gm. split; [exact Go|]. split.
    { pose proof (gram_shape_d _ _ _ _ _ Eg) as Mg. rewrite map_length, (map_res_length _ _ _ Ehf), Lk in Mg. exact Mg. }
    intros K B K0 HK HB h l Hh Hl. pose proof E0 as E0'. pose proof EW as EW'. rewrite ET in E0', EW'. pose proof (n_small x n N C) as (NS & N1 & _).
    assert (B0 : 0 <= B) by (pose proof (co_pos _ _ _ C); eapply Rle_trans; [apply Rabs_pos|apply (HB 0%nat 0%nat); lia]).
    replace (gram_error n K B) with (gram_error (length (em_dist_land_land (t_em x))) K B) by (rewrite Ln; reflexivity).
    refine (gram_d sum_ dot_ (em_dist_land_land (t_em x)) t n0 Hsum Hdot Sq ltac:(lia) _ (x_lsqr ext) (x_junk ext) M0 W etas hf gm ets ints K B
      (fun A b => conj (proj2 HE A b) (Hdl A b)) E0' EW' _ Ehf Eg _ _ K0 B0 _ _ h l _ _); rewrite ?Ln, ?Lk; try assumption.
    - apply le_IZR. rewrite <- INR_IZR_INZ. lra.
    - intros h' c Hc i j Hij. assert (Lee : length c = comb n 2) by (rewrite Forall_forall in Feta; apply Feta, (nth_error_In _ _ Hc)).
      unfold ets. rewrite (nth_error_nth _ _ [] Hc). destruct (eta_of_anti x n N C c Lee) as [_ Hv]. specialize (Hv i j Hij). rewrite ET in Hv.
      rewrite (value_at_rank (em_dist_land_land (t_em x)) n0 2 ltac:(lia) c 1) in Hv by (lia || (apply simplex2; lia)). apply (nth_error_nth _ _ 0%Z) in Hv. exact Hv.
    - intros h' a Ha i. unfold ints. rewrite (nth_error_nth _ _ ([], []) Ha). reflexivity. }
  assert (LR : length rows = k).
  { destruct (Nat.eq_dec k 1) as [H1|H1]; [destruct (U1 H1) as [_ ->]; exact LA|]. destruct (UM ltac:(lia)) as (_ & Elc & _).
    unfold linear_combination_d in Elc. destruct (negb _); cbn [bind] in Elc; [|discriminate]. destruct (_ =? _)%nat; cbn [bind] in Elc; [|discriminate].
    injection Elc as <-. rewrite map_length. apply (proj1 HU). }
  split; [exact LR|]. intros i row Hi integral eta S. split.
  - intros K B K0 HK HB.
    assert (RE : 0 <= row_error n K B).
    { destruct (n_small x n N C) as (_ & N2 & _). assert (B0 : 0 <= B) by (pose proof (co_pos _ _ _ C); eapply Rle_trans; [apply Rabs_pos|apply (HB 0%nat 0%nat); lia]).
      unfold row_error. pose proof (bpow_gt_0 radix2 (-46)). repeat apply Rmult_le_pos; lra. }
    destruct (Nat.eq_dec k 1) as [H1|H1].
    + destruct (U1 H1) as [EU ->]. assert (Hi0 : i = 0%nat) by (apply some_lt in Hi; lia). subst i.
      assert (ES : S = 1) by (unfold S; rewrite H1, EU; cbn; rewrite Rabs_R1; lra).
      eapply (nearly_weaken x N r f (row_error n K B) _ row (ints 0%nat) integral (ets 0%nat) eta); [| |exact (proj1 (Each 0%nat row Hi) K B K0 HK HB)].
      * unfold combine_error. rewrite ES, H1. pose proof (bpow_gt_0 radix2 (-46)). cbn [INR]. lra.
      * intros j b. unfold integral, eta. rewrite (lift_combination x r f k (fun h => at2 0%Z U 0 h) ints ets j b). rewrite H1, EU. cbn. lra.
    + destruct (UM ltac:(lia)) as (_ & Elc & _).
      destruct (combine_rows_d dot_ x N r f A k U rows (row_error n K B) ints ets Hdot K1 Hk2 LA (proj1 HU) RE UB Elc) as [_ Comb].
      { intros h rw Hrw. apply (proj1 (Each h rw Hrw)); assumption. }
      exact (Comb i row Hi).
  - intros b j l Hj Hl. unfold integral, eta.
    rewrite (lift_combination x r f k (fun h => at2 0%Z U i h) ints ets j b), (lift_combination x r f k (fun h => at2 0%Z U i h) ints ets l b), <- sumn_sub, sumnZ_IZR. apply sumn_ext; intros h Hh.
    destruct (nth_error A h) as [rw|] eqn:Er; [|apply nth_error_None in Er; lia].
    rewrite mult_IZR, <- (proj2 (Each h rw Er) b j l Hj Hl). ring.
Qed.
Print Assumptions C92_classes_up_to_rounding.

(** With the default bump function and the default percentage (or that of the projective
    coordinates), for distances that are doubles and satisfy the triangle inequality, and births
    and deaths that are doubles in a reasonable range, rounding cannot spoil the radius. *)
Theorem C92_default :
  forall sum_ dot_ ext x n N perc idxs sr x' rows,
  consistent x n N -> metric x -> sound_numpy ext -> sound_solver ext ->
  (forall A b, Forall double (x_lsqr ext A b)) -> (forall k G L, matrix k k G -> x_cholesky ext G = Ok L -> matrix k k L) ->
  (forall l, added_up l (sum_ l)) -> dot_sound dot_ ->
  cocycles_until_death x idxs -> (Z.of_nat (length idxs) <= 2 ^ 50)%Z ->
  (perc = 1 / 2 \/ perc = dbl (9 / 10)) ->
  (forall i b d, entry (em_dist_land_data (t_em x)) i b d -> double d) ->
  (forall k birth death c, In k idxs -> class_of x k birth death c -> double birth /\ double death /\ 0 <= birth /\ bpow radix2 (-1000) <= death) ->
  get_coordinates_d sum_ dot_ ext x perc idxs pu_linear_d sr true = (x', Ok rows) ->
  exists t, em_rips_threshold (t_em x') = Some t /\ em_r_cover (t_em x') = Some (t / 2) /\ 0 < t /\
    (forall k birth death c, In k idxs -> class_of x k birth death c -> t <= death) /\
    rounded_representation (x_lsqr ext) x x' n N idxs pu_linear_d rows (t / 2) t.
Proof.
  intros sum_ dot_ ext x n N perc idxs sr x' rows C Me HE HS Hdl HC Hsum Hdot Hu Hk2 Hp Dd Hcls E.
  destruct (co_classes _ _ _ C) as (dgm & cs & E1 & E2 & L & Fe).
  destruct (call_anatomy_d sum_ dot_ ext x perc idxs pu_linear_d sr true x' rows dgm cs E1 E2 L E) as
    (reps & birth & death & lifted & r & t & g & Ereps & Nn & B1 & B2 & D1 & D2 & Lt & St & Ert & T1 & T2 & Fl & Ec & Gs).
  assert (Rep : forall b d c, In (b, d, c) reps -> exists k, In k idxs /\ class_of x k b d c).
  { intros b d c Hin. apply In_nth_error in Hin; destruct Hin as (i & Hi). pose proof Ereps as Er. apply map_res_ok2 in Er.
    destruct (f2_nth2 _ _ _ _ _ Er Hi) as (k & Hk & Ek). exists k. split; [exact (nth_error_In _ _ Hk)|]. exact (proj2 (em_class1 (t_em x) k b d c) Ek). }
  assert (Db : double birth /\ 0 <= birth).
  { apply in_map_iff in B1. destruct B1 as ([[b d] c] & Eb & Hin). cbn [fst] in Eb. subst b. destruct (Rep _ _ _ Hin) as (k & Hk & Hc). destruct (Hcls _ _ _ _ Hk Hc) as (H1 & _ & H2 & _). split; assumption. }
  assert (Ddt : double death /\ bpow radix2 (-1000) <= death).
  { apply in_map_iff in D1. destruct D1 as ([[b d] c] & Eb & Hin). cbn [fst snd] in Eb. subst d. destruct (Rep _ _ _ Hin) as (k & Hk & Hc). destruct (Hcls _ _ _ _ Hk Hc) as (_ & H1 & _ & H2). split; assumption. }
  destruct Db as [Db Hb]. destruct Ddt as [Ddt Hd].
  assert (St' : (if sr then 2 * birth else birth) <= death) by (rewrite <- (start_exact birth sr Db); exact St).
  pose proof (C91_default perc birth death sr Hp Db Ddt Hb Hd St') as [Td _]. rewrite <- Ert in Td. cbn [snd] in Td.
  assert (Hd' : bpow radix2 (-1020) <= death) by (eapply Rle_trans; [apply (bpow_le radix2 _ (-1000)); lia|exact Hd]).
  assert (P5 : 1 / 2 <= perc <= 1) by (destruct Hp as [-> | ->]; [lra|rewrite nine_tenths; unfold P9; pow2; lra]).
  assert (Dh : double (death / 2)) by (apply double_half; [exact Ddt|eapply Rle_trans; [apply (bpow_le radix2 _ (-1020)); lia|exact Hd']]).
  assert (Tl : death / 2 <= t).
  { unfold get_cover_radius_d in Ert. injection Ert as _ ->. apply dbl_ge_double; [exact Dh|].
    assert (0 <= dbl (dbl (1 - perc) * (if sr then dbl (2 * birth) else birth))).
    { apply dbl_ge_0, Rmult_le_pos; [apply dbl_ge_0; lra|]. destruct sr; [apply dbl_ge_0; lra|exact Hb]. }
    assert (death / 2 <= dbl (perc * death)) by (apply dbl_ge_double; [exact Dh|pose proof (bpow_gt_0 radix2 (-1020)); nra]). lra. }
  assert (T21 : bpow radix2 (-1021) <= t).
  { replace (-1020)%Z with (1 + -1021)%Z in Hd' by lia. rewrite bpow_plus in Hd'. change (bpow radix2 1) with 2 in Hd'. lra. }
  assert (Dt : double t) by (unfold get_cover_radius_d in Ert; injection Ert as _ ->; apply dbl_dbl).
  assert (Er : r = t / 2).
  { unfold get_cover_radius_d in Ert. injection Ert as Er Et. rewrite <- Et in Er. rewrite Er. apply double_half; assumption. }
  assert (Dr : double r) by (unfold get_cover_radius_d in Ert; injection Ert as -> _; apply dbl_dbl).
  assert (Tall : forall k b d c, In k idxs -> class_of x k b d c -> t <= d).
  { intros k b d c Hk Hc. apply In_nth_error in Hk; destruct Hk as (i & Hi). destruct (map_res_nth _ _ _ _ _ Ereps Hi) as (rep & Hrep & Ek).
    pose proof (proj1 (em_class1 (t_em x) k b d c) Hc) as Ek'. rewrite Ek in Ek'. injection Ek' as ->.
    assert (death <= d) by (apply D2; apply (in_map (fun r => snd (fst r)) reps (b, d, c)); exact (nth_error_In _ _ Hrep)). lra. }
  exists t. subst r. split; [exact T1|]. split; [exact T2|]. split; [pose proof (bpow_gt_0 radix2 (-1021)); lra|]. split; [exact Tall|].
  apply (C92_classes_up_to_rounding sum_ dot_ ext x n N perc idxs pu_linear_d sr x' rows (t / 2) t); try assumption.
  - intros i b d He Hlt. apply linear_pos; [apply (Dd i b d He)|exact Dr|exact Hlt].
  - intros i j b Hij (d1 & H1 & L1) (d2 & H2 & L2). destruct (co_ll _ _ _ C) as [Lm Fm].
    destruct (entry_bounds _ _ _ _ _ _ (co_ld _ _ _ C) H1) as [Bi _]. destruct (entry_bounds _ _ _ _ _ _ (co_ld _ _ _ C) H2) as [Bj _].
    destruct (matrix_entry n n _ i j (co_ll _ _ _ C) Bi Bj) as (d & Hd0). exists d. split; [exact Hd0|].
    pose proof (proj2 Me i j b d d1 d2 Hd0 H1 H2). lra.
Qed.
Print Assumptions C92_default.

(** ** When a call returns *)

(** A call with one class, as in C18: it returns coordinates if the integer lift is a cocycle, or if
    the solver finds existing solutions and the class has an integral lift; if the class has none
    it raises.  [t] is the rounded threshold. *)
Theorem C92_one_class_returns :
  forall sum_ dot_ ext x n N perc idx f (sr : bool) birth death c,
  consistent x n N -> sound_numpy ext -> (forall l, added_up l (sum_ l)) ->
  class_of x idx birth death c -> birth < death -> (if sr then dbl (2 * birth) else birth) <= death -> cocycle_until x death c ->
  let r := fst (get_cover_radius_d perc birth death sr) in let t := snd (get_cover_radius_d perc birth death sr) in
  (forall i b d, entry (em_dist_land_data (t_em x)) i b d -> d < r -> 0 < f d r /\ double (f d r)) -> t <= death ->
  let call := snd (get_coordinates_d sum_ dot_ ext x perc [idx] f sr true) in
  (forall l, integer_lift (em_prime (t_em x)) c l -> cocycle_on (em_dist_land_land (t_em x)) t (fun v => v = 0%Z) (sparse_edge l) ->
     exists row, call = Ok [row]) /\
  (sound_solver ext -> (~ exists eta, lifts_class x n t c eta) -> call = Raise (NoIntegralLift 0)) /\
  (sound_solver ext -> complete_milp (x_milp ext) -> (exists eta, lifts_class x n t c eta) -> exists row, call = Ok [row]).
Proof.
  intros sum_ dot_ ext x n N perc idx f sr birth death c C HE Hsum Hc Hbd Hst Hu r t Hf Htd call.
  pose proof (class_edge_cocycle x n N C _ _ _ _ Hc) as Ecc. set (p := em_prime (t_em x)) in *. pose proof (lift_edge n p c Ecc) as Ez.
  destruct (co_table _ _ _ C) as (n' & Hn' & ET).
  destruct (edge_vector (x_argsort ext) n n' _ (proj1 HE) Hn' Ez) as (vec & Ev & Lv). rewrite <- ET in Ev.
  assert (Front : call = (rr <- coordinates_d sum_ dot_ ext (t_em x) (t_table x) [lift_to_integer_cocycle p c] r t f true ;; Ok (fst rr)))
    by (exact (single_front_d sum_ dot_ x n N ext C perc idx f sr true birth death c Hc Hbd Hst)).
  assert (Ev1 : map_res (fun c => sparse_cocycle_to_vector (x_argsort ext) c (t_table x) n) [lift_to_integer_cocycle p c] = Ok [vec]) by (cbn [map_res]; rewrite Ev; reflexivity).
  assert (Main : forall e, repair_all Rltb (x_junk ext) p (x_milp ext) (em_dist_land_land (t_em x)) t (t_table x) [vec] = Ok [e] -> length e = comb n 2 -> exists row, call = Ok [row]).
  { intros e Er Le. rewrite Front.
    destruct (coordinates_d_total sum_ dot_ x n N ext C HE Hsum f r t Hf [lift_to_integer_cocycle p c] [vec] [e] true Ev1 Er ltac:(constructor; [exact Le|constructor])) as (A & gm & LA & _ & ->).
    cbn [length Nat.ltb Nat.leb bind fst]. destruct A as [|row [|]]; try discriminate LA. exists row. reflexivity. }
  destruct (repair_single ext x n N t death c vec C HE Ecc Hu Htd Ev Lv) as (R1 & R2 & R3). fold p in R1, R2, R3.
  split; [|split].
  - intros l Hl Ho. apply integer_lift_ok in Hl. subst l. apply (Main vec (R1 Ho) Lv).
  - intros Hs No. rewrite Front. unfold coordinates_d. rewrite (co_landmarks _ _ _ C). destruct (get_covering_partition_d _ _ _ _) as [vp bl].
    destruct (matrices_ok x n N ext C t) as (M0 & W & E0 & EW). rewrite E0; cbn [bind]. rewrite Ev1; cbn [bind]. fold p. rewrite (R2 Hs No). reflexivity.
  - intros Hs Hcm Hex. destruct (R3 Hs Hcm Hex) as (e & Er & Le). apply (Main e Er Le).
Qed.
Print Assumptions C92_one_class_returns.

(** A call with several classes whose integer lifts are cocycles returns if Cholesky and the
    lattice reduction do. *)
Theorem C92_several_classes_return :
  forall sum_ dot_ ext x n N perc idxs f (sr : bool) birth death,
  consistent x n N -> field_valued x -> sound_numpy ext -> (forall l, added_up l (sum_ l)) -> (2 <= length idxs)%nat ->
  (forall k, In k idxs -> exists c l, class_of x k birth death c /\ integer_lift (em_prime (t_em x)) c l /\
     cocycle_on (em_dist_land_land (t_em x)) (snd (get_cover_radius_d perc birth death sr)) (fun v => v = 0%Z) (sparse_edge l)) ->
  birth < death -> (if sr then dbl (2 * birth) else birth) <= death ->
  let r := fst (get_cover_radius_d perc birth death sr) in
  (forall i b d, entry (em_dist_land_data (t_em x)) i b d -> d < r -> 0 < f d r /\ double (f d r)) ->
  (forall G, matrix (length idxs) (length idxs) G -> exists L B' U,
     x_cholesky ext G = Ok L /\ matrix (length idxs) (length idxs) L /\ lll_d dbl dot_ (x_fuel ext) L = Ok (B', U)) ->
  exists x' rows, get_coordinates_d sum_ dot_ ext x perc idxs f sr true = (x', Ok rows).
Proof.
  intros sum_ dot_ ext x n N perc idxs f sr birth death C HF HE Hsum H2 Hcls Hbd Hst r Hf Hred.
  assert (G : exists rows, snd (get_coordinates_d sum_ dot_ ext x perc idxs f sr true) = Ok rows).
  2: { destruct G as (rows & G). destruct (get_coordinates_d sum_ dot_ ext x perc idxs f sr true) as [x' res]. cbn [snd] in G; subst res. eauto. }
  assert (Reps : exists reps, map_res (fun k => get_representative_cocycle (t_em x) k 1) idxs = Ok reps /\ length reps = length idxs /\
     Forall (fun rep => fst rep = (birth, death) /\ exists k, In k idxs /\ class_of x k birth death (snd rep) /\
       cocycle_on (em_dist_land_land (t_em x)) (snd (get_cover_radius_d perc birth death sr)) (fun v => v = 0%Z) (sparse_edge (lift_to_integer_cocycle (em_prime (t_em x)) (snd rep)))) reps).
  { clear - Hcls. induction idxs as [|k l IH]; [exists []; split; [reflexivity|split; [reflexivity|constructor]]|].
    destruct IH as (reps & E & L & F); [intros k' Hk'; apply Hcls; right; exact Hk'|].
    destruct (Hcls k (or_introl eq_refl)) as (c & lc & H1 & H2 & H3). apply integer_lift_ok in H2. subst lc.
    pose proof (proj1 (em_class1 (t_em x) k birth death c) H1) as H1'.
    exists ((birth, death, c) :: reps). cbn [map_res]. rewrite H1'; cbn [bind]. rewrite E. split; [reflexivity|]. split; [cbn [length]; congruence|].
    constructor; [cbn [fst snd]; split; [reflexivity|exists k; split; [left; reflexivity|split; assumption]]|].
    eapply Forall_impl; [|exact F]. intros rep (P1 & k' & P2 & P3). split; [exact P1|]. exists k'. split; [right; exact P2|exact P3]. }
  destruct Reps as (reps & Ereps & Lr & Fr).
  assert (Nr : reps <> []) by (intros ->; cbn in Lr; lia).
  destruct (np_max_ok (map (fun r => fst (fst r)) reps) ltac:(destruct reps; [congruence|discriminate])) as (b0 & Eb & Hb & _).
  destruct (np_min_ok (map (fun r => snd (fst r)) reps) ltac:(destruct reps; [congruence|discriminate])) as (d0 & Ed & Hd & _).
  rewrite Forall_forall in Fr.
  assert (b0 = birth) as ->. { apply in_map_iff in Hb as (rep & <- & I). destruct (Fr rep I) as [-> _]. reflexivity. }
  assert (d0 = death) as ->. { apply in_map_iff in Hd as (rep & <- & I). destruct (Fr rep I) as [-> _]. reflexivity. }
  destruct (front_d sum_ dot_ ext x n N perc idxs f sr true reps birth death C Ereps Eb Ed Hbd Hst) as (lifted & Fl & ->). fold r. set (t := snd (get_cover_radius_d perc birth death sr)) in *.
  pose proof (f2_length Fl) as Ll.
  assert (Hl : forall lc, In lc lifted -> edge_cocycle n lc /\ cocycle_on (em_dist_land_land (t_em x)) t (fun v => v = 0%Z) (sparse_edge lc)).
  { intros lc I. apply In_nth_error in I as (i & Hi). destruct (f2_nth2 _ _ _ _ _ Fl Hi) as (rep & Hrep & m & ->).
    destruct (Fr rep (nth_error_In _ _ Hrep)) as (_ & k & Hk & Hc & Ho). split; [apply lifts_edge, (class_edge_cocycle x n N C _ _ _ _ Hc)|].
    rewrite iter_lift_field; [exact Ho|exact (co_prime _ _ _ C)|].
    destruct (get_rep_inv x n N k birth death (snd rep) C Hc) as (dgm & cs & j & _ & G2 & _ & _ & _ & Ec).
    apply Forall_forall. intros row Hrow. apply (HF cs (snd rep) row G2 (nth_error_In _ _ Ec) Hrow). }
  destruct (vecs_ok x n N ext C HE lifted ltac:(apply Forall_forall; intros lc I; apply (Hl lc I))) as (vecs & Ev & Fv).
  rewrite (co_landmarks _ _ _ C) in Ev. pose proof (map_res_length _ _ _ Ev) as Lv.
  destruct (sq_ll x n N C) as [Sq L]. destruct (co_table _ _ _ C) as (n' & Hn' & ET). pose proof (co_pos _ _ _ C) as Hp.
  assert (Er : repair_all Rltb (x_junk ext) (em_prime (t_em x)) (x_milp ext) (em_dist_land_land (t_em x)) t (t_table x) vecs = Ok vecs).
  { unfold repair_all. rewrite ET. rewrite (loop_keep Rltb (em_dist_land_land (t_em x)) t n' 2); [reflexivity|exact Sq|lia|lia|rewrite map_length; unfold range; rewrite seq_length; lia| |].
    - eapply Forall_impl; [|exact Fv]. intros v Hv. rewrite Hv, L. apply comb_is_binomial.
    - rewrite <- ET. apply Forall_forall. intros v Hv. apply In_nth_error in Hv as (i & Hi). pose proof Ev as Ev'. apply map_res_ok2 in Ev'. destruct (f2_nth2 _ _ _ _ _ Ev' Hi) as (lc & Hlc & Elc).
      destruct (Hl lc (nth_error_In _ _ Hlc)) as [Q1 Q2]. apply (vec_cocycle x n N C ext HE lc t v Q1 Elc Q2). }
  destruct (coordinates_d_total sum_ dot_ x n N ext C HE Hsum f r t Hf lifted vecs vecs true Ev Er Fv) as (A & gm & LA & Mg & ->).
  destruct (Nat.ltb_spec 1 (length lifted)); [|lia].
  replace (length vecs) with (length idxs) in Mg by congruence.
  destruct (Hred gm Mg) as (Lm & B' & U & Ec & ML & El).
  destruct (C90_unimodular _ _ _ _ _ _ _ ML El) as [HU HB].
  unfold reduce_circular_coordinates_d. rewrite Ec; cbn [bind]. rewrite El; cbn [bind fst snd].
  assert (LU : length (hd [] U) = length idxs).
  { destruct HU as ([L1 F1] & _). destruct U as [|u U]; [cbn in L1; lia|]. inversion F1; subst. assumption. }
  unfold linear_combination_d. rewrite LU. replace (length A) with (length idxs) by congruence. rewrite Nat.eqb_refl.
  destruct (Nat.eqb_spec (length idxs) 0) as [Z0|_]; [lia|]. cbn [negb bind fst]. eexists; reflexivity.
Qed.
Print Assumptions C92_several_classes_return.


(** ** Examples *)

(** Inner products computed with a loop have the error assumed of them. *)
Lemma pow_upper n : INR n * u53 <= / 4 -> (1 + u53) ^ n <= 1 + INR n * u53 + (INR n * u53) * (INR n * u53).
Proof.
  assert (U : 0 < u53 < 1) by (rewrite u53_val; lra). set (u := u53) in *. clearbody u.
  induction n as [|n IH]; [cbn; lra|]. rewrite S_INR. cbn [pow]. pose proof (pos_INR n) as Pn. intros H.
  assert (H' : INR n * u <= / 4) by nra. specialize (IH H'). set (x := INR n * u) in *.
  assert (0 <= x) by (unfold x; nra). replace ((INR n + 1) * u) with (x + u) in * by (unfold x; ring). clearbody x.
  assert (A : (1 + u) * (1 + u) ^ n <= (1 + u) * (1 + x + x * x)) by (apply Rmult_le_compat_l; lra). assert (u * (x * x) <= u * x) by (apply Rmult_le_compat_l; nra). nra.
Qed.
Lemma rounded_total l e : 0 <= e -> (forall q, Rabs (dbl q - q) <= u53 * Rabs q + e) ->
  Rabs (total (map dbl l) - total l) <= u53 * total (map Rabs l) + INR (length l) * e /\
  total (map Rabs (map dbl l)) <= (1 + u53) * total (map Rabs l) + INR (length l) * e.
Proof.
  intros He H. unfold total. induction l as [|q l [IH1 IH2]]; [cbn; rewrite Rminus_0_r, Rabs_R0; lra|].
  cbn [map fold_right length]. rewrite S_INR. specialize (H q). split.
  - replace (dbl q + _ - _) with ((dbl q - q) + (fold_right Rplus 0 (map dbl l) - fold_right Rplus 0 l)) by ring. eapply Rle_trans; [apply Rabs_triang|]. lra.
  - assert (Rabs (dbl q) <= Rabs q + Rabs (dbl q - q)) by (replace (dbl q) with (q + (dbl q - q)) at 1 by ring; apply Rabs_triang). lra.
Qed.
Lemma running_dot_sound : dot_sound running_dot.
Proof.
  intros a w L Da Dw Hn. unfold running_dot. rewrite <- (map_map (fun p => fst p * snd p) dbl). fold (products a w). set (qs := products a w).
  assert (Lq : length qs = length a) by (unfold qs, products; rewrite map_length, combine_length; lia).
  assert (F : Forall double (map dbl qs)) by (apply Forall_map, Forall_forall; intros; apply dbl_dbl).
  pose proof (running_sum_added (map dbl qs)) as Ad. split; [apply (added_double _ _ Ad F)|].
  destruct (length a) as [|n] eqn:En.
  { apply length_zero_iff_nil in Lq. rewrite Lq. cbn. rewrite Rminus_0_r, Rabs_R0. lra. }
  pose proof (added_error_sharp _ _ Ad F) as E1. rewrite map_length, Lq in E1. replace (S n - 1)%nat with n in E1 by lia.
  set (e := bpow radix2 (-1075)). assert (He : 0 < e) by apply bpow_gt_0.
  destruct (rounded_total qs e ltac:(lra) dbl_error) as [E2 E3]. rewrite Lq in E2, E3.
  replace (bpow radix2 (-1074)) with (2 * e) by (unfold e; change (-1074)%Z with (1 + -1075)%Z; rewrite bpow_plus; reflexivity).
  replace (bpow radix2 (-52)) with (2 * u53) by (change (-52)%Z with (1 + -53)%Z; rewrite bpow_plus; reflexivity).
  assert (Hu : INR (S n) * u53 <= / 8).
  { rewrite INR_IZR_INZ. apply IZR_le in Hn. rewrite u53_val. change (2 ^ 50)%Z with 1125899906842624%Z in Hn. lra. }
  assert (U : 0 < u53 < / 1000) by (rewrite u53_val; lra). pose proof (pos_INR n) as Pn. rewrite S_INR in *.
  pose proof (pow_upper n ltac:(clearbody e; nra)) as P. pose proof (pow_ge_1 (1 + u53) n ltac:(lra)) as P1.
  pose proof (total_abs_nonneg qs) as T0. pose proof (total_abs_nonneg (map dbl qs)) as T1.
  set (u := u53) in *. set (Q := (1 + u) ^ n) in *. set (T := total (map Rabs qs)) in *. set (T' := total (map Rabs (map dbl qs))) in *.
  set (s := running_sum (map dbl qs)) in *. set (x := INR n * u) in *.
  assert (X : 0 <= x <= / 8) by (unfold x; nra).
  assert (E : Rabs (s - total qs) <= (Q - 1) * T' + (u * T + (INR n + 1) * e)).
  { replace (s - total qs) with ((s - total (map dbl qs)) + (total (map dbl qs) - total qs)) by ring. eapply Rle_trans; [apply Rabs_triang|]. lra. }
  assert (Q2 : (Q - 1) * T' <= (Q - 1) * ((1 + u) * T + (INR n + 1) * e)) by (apply Rmult_le_compat_l; lra).
  assert (Q3 : (Q - 1) * ((INR n + 1) * e) <= (INR n + 1) * e) by (clear - P X P1 Pn He; assert (Q - 1 <= 1) by nra; assert (0 <= (INR n + 1) * e) by nra; nra).
  assert (Q4 : (Q - 1) * (1 + u) + u <= (INR n + 1) * (2 * u)).
  { replace ((INR n + 1) * (2 * u)) with (2 * x + 2 * u) by (unfold x; ring). clear - P X U P1. clearbody Q x. nra. }
  assert (Q5 : ((Q - 1) * (1 + u) + u) * T <= (INR n + 1) * (2 * u) * T) by (apply Rmult_le_compat_r; assumption). lra.
Qed.

(** Rounded least squares satisfy the normal equations as assumed. *)
Lemma dense_size A : sumn (s_rows A) (fun i => sumn (s_cols A) (fun c => Rabs (dense A c i))) <= size A.
Proof.
  unfold dense, size, np_sum, total. induction (s_entries A) as [|e es IH]; cbn [map fold_right].
  - rewrite sumn_0; [lra|]. intros. apply sumn_0; intros. apply Rabs_R0.
  - set (hit := fun i c => if ((fst (fst e) =? i) && (snd (fst e) =? c))%bool then IZR (snd e) else 0).
    eapply Rle_trans; [|apply Rplus_le_compat_l, IH].
    apply Rle_trans with (sumn (s_rows A) (fun i => sumn (s_cols A) (fun c => Rabs (hit i c))) +
      sumn (s_rows A) (fun i => sumn (s_cols A) (fun c => Rabs (fold_right Rplus 0 (map (fun e0 => if ((fst (fst e0) =? i) && (snd (fst e0) =? c))%bool then IZR (snd e0) else 0) es))))).
    + rewrite <- sumn_add. apply sumn_le; intros i _. rewrite <- sumn_add. apply sumn_le; intros c _. apply Rabs_triang.
    + apply Rplus_le_compat_r. unfold hit.
      assert (R0 : forall i, (i < s_rows A)%nat -> sumn (s_cols A) (fun c => Rabs (if ((fst (fst e) =? i) && (snd (fst e) =? c))%bool then IZR (snd e) else 0)) <= (if (fst (fst e) =? i)%nat then Rabs (IZR (snd e)) else 0)).
      { intros i _. destruct (fst (fst e) =? i)%nat; cbn [andb]; [|rewrite sumn_0; [lra|intros; apply Rabs_R0]].
        destruct (Nat.lt_ge_cases (snd (fst e)) (s_cols A)) as [H|H].
        - rewrite (sumn_single _ _ _ H); [rewrite Nat.eqb_refl; lra|]. intros c _ Hne. rewrite (proj2 (Nat.eqb_neq _ c)) by congruence. apply Rabs_R0.
        - rewrite sumn_0; [apply Rabs_pos|]. intros c Hc. rewrite (proj2 (Nat.eqb_neq _ c)) by lia. apply Rabs_R0. }
      eapply Rle_trans; [apply sumn_le, R0|]. destruct (Nat.lt_ge_cases (fst (fst e)) (s_rows A)) as [H|H].
      * rewrite (sumn_single _ _ _ H); [rewrite Nat.eqb_refl; lra|]. intros c _ Hne. rewrite (proj2 (Nat.eqb_neq _ c)) by congruence. reflexivity.
      * rewrite sumn_0; [apply Rabs_pos|]. intros c Hc. rewrite (proj2 (Nat.eqb_neq _ c)) by lia. reflexivity.
Qed.
Lemma normal_equations A b y u v : length b = s_rows A -> length y = s_cols A ->
  matvec (K := Rring) A (lsq A b) = Ok u -> matvec (K := Rring) A y = Ok v -> inner (length b) v (vsub b u) = 0.
Proof.
  intros Lb Ly Eu Ev. destruct (lsq_least_squares A b Lb) as [Ll Hmin]. change (carrier Rring) with R in *.
  destruct (matvec_dense A _ u Ll Eu) as [Lu Hu]. destruct (matvec_dense A y v Ly Ev) as [Lv Hv].
  apply (quadratic_zero _ (inner (length b) v v)); [apply sumn_nonneg; intros; nra|]. intros s.
  set (w := mk1 (s_cols A) (fun c => nth c (lsq A b) 0 + s * nth c y 0)).
  assert (Lw : length w = s_cols A) by apply length_mk1.
  destruct (matvec_ok (K := Rring) A w Lw) as (z & Ez & _). change (carrier Rring) with R in *. destruct (matvec_dense A w z Lw Ez) as [Lz Hz].
  specialize (Hmin w u z Lw Eu Ez).
  assert (Ezz : forall i, (i < s_rows A)%nat -> nth i z 0 = nth i u 0 + s * nth i v 0).
  { intros i Hi. rewrite (Hz i Hi), (Hu i Hi), (Hv i Hi). unfold apply_cols. rewrite <- sumn_scal, <- sumn_add. apply sumn_ext; intros c Hc. unfold w. rewrite nth_mk1 by exact Hc. ring. }
  assert (Q : inner (length b) (vsub b z) (vsub b z) = inner (length b) (vsub b u) (vsub b u) + (- 2 * s * inner (length b) v (vsub b u) + s ^ 2 * inner (length b) v v)).
  { unfold inner. rewrite <- !sumn_scal, <- !sumn_add. apply sumn_ext; intros i Hi. rewrite (nth_vsub b z i (eq_trans Lb (eq_sym Lz))), (nth_vsub b u i (eq_trans Lb (eq_sym Lu))). rewrite (Ezz i) by lia. ring. }
  rewrite Q in Hmin. lra.
Qed.
Lemma rounded_lsq : nearly_least_squares (bpow radix2 (-52)) (fun A b => map dbl (lsq A b)).
Proof.
  intros A b y u v Lb Ly Eu Ev. destruct (lsq_least_squares A b Lb) as [Ll _]. set (x := lsq A b) in *. change (carrier Rring) with R in *.
  assert (Lx : length (map dbl x) = s_cols A) by (rewrite map_length; exact Ll).
  destruct (matvec_ok (K := Rring) A x Ll) as (u0 & Eu0 & _). change (carrier Rring) with R in *.
  pose proof (normal_equations A b y u0 v Lb Ly Eu0 Ev) as NE.
  destruct (matvec_dense A _ u Lx Eu) as [Lu Hu]. destruct (matvec_dense A x u0 Ll Eu0) as [Lu0 Hu0]. destruct (matvec_dense A y v Ly Ev) as [Lv Hv].
  set (X := total (map Rabs (map dbl x))) in *. set (Y := total (map Rabs y)) in *. set (S := size A). set (r := length b) in *.
  assert (X0 : 0 <= X) by apply total_abs_nonneg. assert (Y0 : 0 <= Y) by apply total_abs_nonneg. pose proof (total_abs_nonneg b) as B0.
  assert (S0 : 0 <= S).
  { eapply Rle_trans; [|apply dense_size]. apply sumn_nonneg; intros; apply sumn_nonneg; intros; apply Rabs_pos. }
  assert (ge : forall l i, Rabs (nth i l 0) <= total (map Rabs l)).
  { intros l i. rewrite total_sumn. destruct (Nat.lt_ge_cases i (length l)) as [H|H].
    - apply (sumn_term (length l) (fun r => Rabs (nth r l 0)) i); [intros; apply Rabs_pos|exact H].
    - rewrite nth_overflow, Rabs_R0 by exact H. apply sumn_nonneg; intros; apply Rabs_pos. }
  set (D := bpow radix2 (-52) * (X + 1)). assert (U0 := bpow_gt_0 radix2 (-52)).
  assert (Hd : forall c, (c < s_cols A)%nat -> Rabs (nth c (map dbl x) 0 - nth c x 0) <= D).
  { intros c Hc. rewrite (nth_map_lt _ _ _ 0) by lia. pose proof (ge (map dbl x) c) as G. rewrite (nth_map_lt _ _ _ 0) in G by lia. fold X in G.
    set (z := nth c x 0) in *. pose proof (dbl_error z) as E. pose proof (tiny_le (-1075) ltac:(lia)) as [_ T]. change (2 ^ 60)%Z with 1152921504606846976%Z in T.
    assert (Rabs z <= Rabs (dbl z) + Rabs (dbl z - z)) by (replace z with (dbl z - (dbl z - z)) at 1 by ring; unfold Rminus at 1; eapply Rle_trans; [apply Rabs_triang|rewrite Rabs_Ropp; lra]).
    unfold D. replace (bpow radix2 (-52)) with (2 * u53) by (rewrite u53_val; pow2; lra). rewrite u53_val in *. lra. }
  replace (inner r v (vsub b u)) with (sumn r (fun i => nth i v 0 * (nth i u0 0 - nth i u 0))).
  2: { apply Rminus_diag_uniq. transitivity (- inner r v (vsub b u0)); [|rewrite NE; ring]. unfold inner. rewrite <- sumn_sub.
       replace (- sumn r (fun i => nth i v 0 * nth i (vsub b u0) 0)) with (-1 * sumn r (fun i => nth i v 0 * nth i (vsub b u0) 0)) by ring. rewrite <- sumn_scal.
       apply sumn_ext; intros i Hi. rewrite (nth_vsub b u0 i (eq_trans Lb (eq_sym Lu0))), (nth_vsub b u i (eq_trans Lb (eq_sym Lu))). ring. }
  set (a := fun i => sumn (s_cols A) (fun c => Rabs (dense A c i))).
  assert (a0 : forall i, 0 <= a i) by (intros; apply sumn_nonneg; intros; apply Rabs_pos).
  assert (aS : sumn r a <= S) by (rewrite Lb; apply dense_size).
  assert (Hv' : forall i, (i < r)%nat -> Rabs (nth i v 0) <= Y * a i).
  { intros i Hi. rewrite (Hv i) by lia. unfold apply_cols, a. rewrite <- sumn_scal. eapply Rle_trans; [apply sumn_abs|]. apply sumn_le; intros c _. rewrite Rabs_mult. apply Rmult_le_compat_r; [apply Rabs_pos|apply ge]. }
  assert (D0 : 0 <= D) by (unfold D; nra).
  assert (Hu' : forall i, (i < r)%nat -> Rabs (nth i u0 0 - nth i u 0) <= D * S).
  { intros i Hi. rewrite (Hu0 i), (Hu i) by lia. unfold apply_cols. rewrite <- sumn_sub. apply Rle_trans with (D * a i).
    - unfold a. rewrite <- sumn_scal. eapply Rle_trans; [apply sumn_abs|]. apply sumn_le; intros c Hc.
      match goal with |- Rabs ?g <= _ => replace g with ((nth c x 0 - nth c (map dbl x) 0) * dense A c i) by ring end.
      rewrite Rabs_mult. apply Rmult_le_compat_r; [apply Rabs_pos|]. rewrite Rabs_minus_sym. apply Hd, Hc.
    - apply Rmult_le_compat_l; [exact D0|]. eapply Rle_trans; [apply (sumn_term r a i a0 Hi)|exact aS]. }
  eapply Rle_trans; [apply sumn_abs|]. apply Rle_trans with (sumn r (fun i => (D * S) * (Y * a i))).
  { apply sumn_le; intros i Hi. rewrite Rabs_mult, Rmult_comm. apply Rmult_le_compat; try apply Rabs_pos; auto. }
  rewrite sumn_scal, sumn_scal. apply Rle_trans with (D * S * (Y * S)).
  { apply Rmult_le_compat_l; [nra|]. apply Rmult_le_compat_l; assumption. }
  unfold D. set (w := bpow radix2 (-52)) in *.
  assert (A1 : S * S <= (1 + S) ^ 2) by nra. assert (A2 : X + 1 <= total (map Rabs b) + X + 1) by lra.
  assert (A3 : (S * S) * (X + 1) <= (1 + S) ^ 2 * (total (map Rabs b) + X + 1)) by (apply Rmult_le_compat; nra || lra).
  assert (A4 : w * Y * ((S * S) * (X + 1)) <= w * Y * ((1 + S) ^ 2 * (total (map Rabs b) + X + 1))) by (apply Rmult_le_compat_l; [nra|exact A3]).
  lra.
Qed.

(** Least squares rounded to doubles, loops for sums and inner products, and a Cholesky routine for
    two classes after which the lattice reduction changes the basis. *)
Definition rounded_ext : externals :=
  mkExt argsort_Z exhaustive_milp (fun A b => map dbl (lsq A b))
    (fun G => if (length G =? 2)%nat then Ok [[1; 0]; [3; 1]] else Raise LinAlgError) (fun _ => 7%Z) 3.
Lemma rounded_ext_ok : sound_numpy rounded_ext /\ sound_solver rounded_ext /\ complete_milp (x_milp rounded_ext) /\
  (forall A b, Forall double (x_lsqr rounded_ext A b)) /\
  (forall k G L, matrix k k G -> x_cholesky rounded_ext G = Ok L -> matrix k k L) /\
  nearly_least_squares (bpow radix2 (-52)) (x_lsqr rounded_ext).
Proof.
  split; [|split; [|split; [exact exhaustive_complete|split; [|split; [|exact rounded_lsq]]]]].
  - destruct theta_numpy as [A B]. split; [exact A|]. intros M b. cbn [rounded_ext x_lsqr]. rewrite map_length. apply (B M b).
  - exists 0, 0. split; [lra|]. split; [lra|]. split; [lra|exact exhaustive_sound].
  - intros M b. cbn [rounded_ext x_lsqr]. apply Forall_map, Forall_forall. intros; apply dbl_dbl.
  - intros k G L [LG _] E. cbn [rounded_ext x_cholesky] in E. destruct (Nat.eqb_spec (length G) 2) as [H|H]; [|discriminate]. injection E as <-.
    replace k with 2%nat by congruence. repeat constructor.
Qed.
Lemma small_radius : get_cover_radius_d (1 / 2) 1 2 false = (3 / 4, 3 / 2).
Proof.
  assert (H : forall m e, (Z.abs m <= 2 ^ 53)%Z -> (-1074 <= e)%Z -> dbl (IZR m * bpow radix2 e) = IZR m * bpow radix2 e) by exact double_F.
  assert (D1 : dbl (1 / 2) = 1 / 2) by (replace (1 / 2) with (IZR 1 * bpow radix2 (-1)) by (pow2; lra); apply H; cbn; lia).
  assert (D3 : dbl (3 / 2) = 3 / 2) by (replace (3 / 2) with (IZR 3 * bpow radix2 (-1)) by (pow2; lra); apply H; cbn; lia).
  assert (D4 : dbl (3 / 4) = 3 / 4) by (replace (3 / 4) with (IZR 3 * bpow radix2 (-2)) by (pow2; lra); apply H; cbn; lia).
  assert (D0 : dbl 1 = 1) by (apply (double_IZR 1); cbn; lia).
  unfold get_cover_radius_d. replace (1 - 1 / 2) with (1 / 2) by lra. rewrite D1. replace (1 / 2 * 1) with (1 / 2) by lra. replace (1 / 2 * 2) with 1 by lra. rewrite D1, D0.
  replace (1 / 2 + 1) with (3 / 2) by lra. rewrite D3. replace (3 / 2 / 2) with (3 / 4) by lra. rewrite D4. reflexivity.
Qed.
Lemma double_small z : (Z.abs z <= 2)%Z -> double (IZR z).
Proof. intros H. apply double_IZR. lia. Qed.

(** A class that must be repaired. *)
Example C92_one_class_case :
  let x := graph 5 kite_edges 3 [kite_class] in
  exists x' row, get_coordinates_d running_sum running_dot rounded_ext x (1 / 2) [PyInt 0] pu_linear_d false true = (x', Ok [row]) /\
    rounded_representation (x_lsqr rounded_ext) x x' 5 5 [PyInt 0] pu_linear_d [row] (3 / 4) (3 / 2).
Proof.
  intros x. destruct C18_call_nonvacuous as (_ & (C & M & _ & Hc & Hu & _ & Hex) & _). fold x in C, M, Hc, Hu, Hex.
  destruct rounded_ext_ok as (HE & HS & HM & HD & HC & _).
  assert (Dd : forall i b d, entry (em_dist_land_data (t_em x)) i b d -> double d).
  { intros i b d H. apply graph_entry in H as (_ & _ & ->). unfold graph_dist. destruct (i =? b)%nat; [|destruct (adj _ _ _)]; apply double_small; cbn; lia. }
  assert (D34 : double (3 / 4)) by (replace (3 / 4) with (IZR 3 * bpow radix2 (-2)) by (pow2; lra); apply double_F; cbn; lia).
  assert (G : exists row, snd (get_coordinates_d running_sum running_dot rounded_ext x (1 / 2) [PyInt 0] pu_linear_d false true) = Ok [row]).
  { refine (proj2 (proj2 (C92_one_class_returns running_sum running_dot rounded_ext x 5 5 (1 / 2) (PyInt 0) pu_linear_d false 1 2 kite_class C HE running_sum_added Hc ltac:(lra) ltac:(lra) Hu _ _)) HS HM _); rewrite small_radius; cbn [fst snd].
    - intros i b d Hd Hlt. apply linear_pos; [apply (Dd i b d Hd)|exact D34|exact Hlt].
    - lra.
    - exact Hex. }
  destruct G as (row & G). destruct (get_coordinates_d running_sum running_dot rounded_ext x (1 / 2) [PyInt 0] pu_linear_d false true) as [x' res] eqn:E. cbn [snd] in G. subst res.
  exists x', row. split; [reflexivity|].
  assert (One : forall k birth death c, In k [PyInt 0] -> class_of x k birth death c -> birth = 1 /\ death = 2 /\ c = kite_class).
  { intros k birth death c [<-|[]] H. apply em_class1 in H. cbv in H. injection H as <- <- <-. repeat split. }
  destruct (C92_default running_sum running_dot rounded_ext x 5 5 (1 / 2) [PyInt 0] false x' [row] C M HE HS HD HC running_sum_added running_dot_sound) as (t & T1 & T2 & _ & _ & Rp); try assumption.
  - intros k birth death c Hk H. destruct (One _ _ _ _ Hk H) as (-> & -> & ->). exact Hu.
  - cbn; lia.
  - left; reflexivity.
  - intros k birth death c Hk H. destruct (One _ _ _ _ Hk H) as (-> & -> & ->).
    split; [apply double_small; cbn; lia|]. split; [apply double_small; cbn; lia|]. split; [lra|]. eapply Rle_trans; [apply (bpow_le radix2 _ 0); lia|]. cbn. lra.
  - replace t with (3 / 2) in Rp; [replace (3 / 4) with (3 / 2 / 2) by lra; exact Rp|].
    destruct (co_classes _ _ _ C) as (dgm & cs & E1 & E2 & L & Fe).
    destruct (call_anatomy_d running_sum running_dot rounded_ext x (1 / 2) [PyInt 0] pu_linear_d false true x' [row] dgm cs E1 E2 L E) as
      (reps & birth & death & lifted & r & t' & g & Ereps & Nn & B1 & B2 & D1 & D2 & Lt & St & Ert & T1' & _).
    rewrite T1 in T1'. injection T1' as <-. assert (reps = [(1, 2, kite_class)]) as -> by (cbv in Ereps; injection Ereps as <-; reflexivity).
    destruct B1 as [B1|[]]. destruct D1 as [D1|[]]. cbn in B1, D1. subst birth death. rewrite small_radius in Ert. injection Ert as _ <-. reflexivity.
Qed.

(** Two classes. *)
Example C92_several_classes_case :
  exists x' rows, get_coordinates_d running_sum running_dot rounded_ext theta (1 / 2) [PyInt 0; PyInt 1] pu_linear_d false true = (x', Ok rows) /\
    exists t, rounded_representation (x_lsqr rounded_ext) theta x' 5 5 [PyInt 0; PyInt 1] pu_linear_d rows (t / 2) t.
Proof.
  destruct rounded_ext_ok as (HE & HS & HM & HD & HC & _).
  assert (Dd : forall i b d, entry (em_dist_land_data (t_em theta)) i b d -> double d).
  { intros i b d H. apply theta_entry in H as (Hi & Hj & ->).
    do 5 (destruct i as [|i]; [do 5 (destruct b as [|b]; [cbn; apply double_small; cbn; lia|]); lia|]). lia. }
  assert (D34 : double (3 / 4)) by (replace (3 / 4) with (IZR 3 * bpow radix2 (-2)) by (pow2; lra); apply double_F; cbn; lia).
  assert (Cls : forall k, In k [PyInt 0; PyInt 1] -> exists c, class_of theta k 1 2 c).
  { intros k [<-|[<-|[]]]; eexists; apply em_class1; reflexivity. }
  assert (One : forall k birth death c, In k [PyInt 0; PyInt 1] -> class_of theta k birth death c -> birth = 1 /\ death = 2).
  { intros k birth death c [<-|[<-|[]]] H; apply em_class1 in H; cbv in H; injection H as <- <- <-; repeat split. }
  destruct (C92_several_classes_return running_sum running_dot rounded_ext theta 5 5 (1 / 2) [PyInt 0; PyInt 1] pu_linear_d false 1 2 theta_consistent theta_field HE running_sum_added ltac:(cbn; lia)) as (x' & rows & E); try lra.
  - rewrite small_radius. cbn [snd]. intros k Hk. destruct (Cls k Hk) as [c Hc]. exists c, (lift_to_integer_cocycle 41 c). split; [exact Hc|]. split; [apply integer_lift_ok; reflexivity|apply theta_cocycle_on; lra].
  - rewrite small_radius. cbn [fst]. intros i b d Hd Hlt. apply linear_pos; [apply (Dd i b d Hd)|exact D34|exact Hlt].
  - intros G [LG _]. destruct C90_case as (B' & EB). exists [[1; 0]; [3; 1]], B', [[1; 0]; [-3; 1]]%Z.
    cbn [rounded_ext x_cholesky x_fuel length] in *. rewrite LG. split; [reflexivity|]. split; [repeat constructor|exact EB].
  - exists x', rows. split; [exact E|].
    destruct (C92_default running_sum running_dot rounded_ext theta 5 5 (1 / 2) [PyInt 0; PyInt 1] false x' rows theta_consistent theta_metric HE HS HD HC running_sum_added running_dot_sound) as (t & T1 & T2 & _ & _ & Rp); try assumption.
    + intros k birth death c Hk H. destruct (One _ _ _ _ Hk H) as (-> & ->). apply theta_cocycle_on. lra.
    + cbn; lia.
    + left; reflexivity.
    + intros k birth death c Hk H. destruct (One _ _ _ _ Hk H) as (-> & ->).
      split; [apply double_small; cbn; lia|]. split; [apply double_small; cbn; lia|]. split; [lra|]. eapply Rle_trans; [apply (bpow_le radix2 _ 0); lia|]. cbn. lra.
    + exists t. exact Rp.
Qed.
