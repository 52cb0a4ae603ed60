(** RoundTorusFacts.v -- ToroidalCoords.get_coordinates in double precision: one row, and the call. *)
From Coq Require Import Reals Lra Lia ZArith List Permutation Psatz.
From Flocq Require Import Core.
From Verif Require Import Base BaseProofs CombinatorialModel SpecSimplex CombinatorialProofs
  DeltaModel SpecRips RipsProofs DeltaProofs DeltaFacts RealBase RealSum SpecRepair RepairModel RepairProofs
  EMModel SpecEM EMProofs CircleModel SpecCircle CircleProofs LLLModel SpecLLL LLLProofs
  CohomologyModel SpecCohomology CohomologyProofs
  ToroidalModel SpecToroidal ToroidalProofs ToroidalFacts ToroidalTotal SpecRound RoundBase RoundModel RoundProofs RoundCover RoundLLL RoundTorusModel RoundTorusProofs PropRound.
Import ListNotations.
Local Open Scope R_scope.

Section RowD.
Variables (sum_ : list R -> R) (dot_ : list R -> list R -> R) (x : tor) (n N : nat).
Hypothesis Hsum : forall l, added_up l (sum_ l).
Hypothesis Hdot : dot_sound dot_.
Hypothesis C : consistent x n N.
Variables (f : R -> R -> R) (r t : R).
Notation ld := (em_dist_land_data (t_em x)).
Notation ll := (em_dist_land_land (t_em x)).
Notation T := (t_table x).
Hypothesis Hf : forall i b d, entry ld i b d -> d < r -> 0 < f d r /\ double (f d r).
Notation varphi := (fst (get_covering_partition_d sum_ ld r f)).
Notation ball := (snd (get_covering_partition_d sum_ ld r f)).

Lemma ball_lt : Forall (fun k => (k < n)%nat) ball.
Proof.
  destruct (part_d sum_ x n N Hsum C f r Hf) as (P1 & P2 & _ & P3). apply Forall_forall; intros k Hk.
  apply In_nth_error in Hk; destruct Hk as (b & Hk). pose proof (some_lt _ _ _ Hk) as Hb; rewrite P2 in Hb.
  destruct (P3 b Hb) as [Q1 Q2]. destruct (covered_dec x n N C r b) as [Y|Y].
  - destruct (Q1 Y) as (k' & _ & Ek & Bk & _). rewrite Hk in Ek; injection Ek as <-. apply (in_ball_bounds x n N C r _ _ Bk).
  - destruct (Q2 Y) as [_ Ek]. rewrite Hk in Ek; injection Ek as ->. pose proof (co_pos _ _ _ C); lia.
Qed.

Lemma double_nth l i : Forall double l -> double (nth i l 0).
Proof. intros F. destruct (nth_in_or_default i l 0) as [I| ->]; [rewrite Forall_forall in F; apply F, I|exact double_0]. Qed.

Lemma row_d ext junk M0 W c hd g eta row K B :
  (forall A b, length (x_lsqr ext A b) = s_cols A /\ Forall double (x_lsqr ext A b)) ->
  make_delta0 Rltb junk ll t T = Ok M0 -> make_inner_product Rltb junk ll t T = Ok W -> length c = comb n 2 ->
  integrate_harmonic_representative_d sum_ (x_lsqr ext) c M0 (snd W) = Ok (hd, g) -> antisymmetric T n c eta ->
  sparse_integrate_d dot_ hd g varphi ball ll t T = Ok row ->
  overlaps_joined x r t -> one_cocycle Rltb ll t T c ->
  0 <= K -> (forall i j, (i < j < n)%nat -> Rabs (IZR (eta i j)) <= K) -> (forall i, (i < n)%nat -> Rabs (nth i g 0) <= B) ->
  nearly_classified_by x N r f (row_error n K B) row (fun i => nth i g 0) eta /\
  (forall b j l, in_ball ld r j b -> in_ball ld r l b ->
     lift x r f (fun i => nth i g 0) eta j b - lift x r f (fun i => nth i g 0) eta l b = IZR (eta j l)).
Proof.
  intros Hl E0 EW Lc EI An ES Joined Hc K0 HK HB.
  destruct (sq_ll x n N C) as [Sq Ln]. destruct (co_table _ _ _ C) as (n' & Hn' & ET).
  destruct (n_small x n N C) as (N1 & N2 & N3). pose proof (co_pos _ _ _ C) as Hpos.
  pose proof E0 as E0'. pose proof EW as EW'. pose proof ES as ES'. rewrite ET in E0', EW', ES'.
  assert (Hn2 : (length ll <= n')%nat) by lia.
  destruct (integrate_d sum_ ll t n' Hsum Sq Hn2 (x_lsqr ext) c junk M0 W hd g ltac:(rewrite Ln; lia) Hl E0' EW' ltac:(rewrite Ln; exact Lc) EI)
    as (Lg & Dg & Lhd & Dhd & h & EH & Lh & Hcl). rewrite Ln in Lg, Lhd, Lh, Hcl.
  set (ext' := mkExt (x_argsort ext) (x_milp ext) (constant_lsqr g) (x_cholesky ext) (x_junk ext) (x_fuel ext)).
  assert (EH' : integrate_harmonic_representative (x_lsqr ext') c M0 (snd W) = Ok (h, g)) by exact EH.
  pose proof (f_all_bump x f r Hf) as Hbump.
  destruct (row_ok x n N C (f_all x f) r t Hbump h g Lh Lg) as (rowx & ESx & _ & _).
  assert (J' : forall i j b, (i < j)%nat -> in_ball ld r i b -> in_ball ld r j b -> close Rltb ll t i j).
  { intros i j b Hij Hi Hj. destruct (Joined i j b Hij Hi Hj) as (d & Ed & Hd). destruct Ed as (rw & X1 & X2). exists rw, d. split; [exact X1|]. split; [exact X2|]. apply Rltb_true, Hd. }
  destruct (class_row_joined x n N C (f_all x f) r t Hbump ext' junk M0 W c h g eta rowx (constant_lsqr_length g) E0 EW Lc EH' An ESx J' Hc) as (_ & Dl & Fm).
  destruct (part_d sum_ x n N Hsum C f r Hf) as (P1 & P2 & _ & P3).
  destruct (sparse_integrate_d_ok dot_ ll t n' hd g varphi ball N Sq Hn2 ltac:(rewrite Ln; exact Lhd) ltac:(rewrite Ln; exact Lg) ltac:(rewrite Ln; exact P1) P2 ltac:(rewrite Ln; exact ball_lt)) as (row' & ES2 & Lr & Hr).
  rewrite ES' in ES2; apply Ok_inj in ES2; subst row'. rewrite Ln in Hr.
  split; [|intros b j l Hj Hl'; pose proof (Dl b j l Hj Hl') as X; rewrite !(f_all_lift x f r) in X; exact X].
  split; [exact Lr|]. intros b Hb. destruct (P3 b Hb) as [Q1 Q2]. split.
  2: { intros Hn. destruct (Q2 Hn) as [V1 V2]. apply (Hr b 0%nat V2). exists 0%nat. apply V1. lia. }
  intros j Hj. destruct (Q1 (ex_intro _ j Hj)) as (k & wd & Ek & Bk & Mk & Sw & S1 & Hw).
  destruct (Hr b k Ek) as [R1 _]. specialize (R1 wd (fun s Hs => proj1 (Hw s Hs))).
  destruct (in_ball_bounds x n N C r k b Bk) as [Hk _].
  set (Q := K + 2 * B). assert (B0 : 0 <= B) by (eapply Rle_trans; [apply Rabs_pos|apply (HB k Hk)]).
  assert (Q0 : 0 <= Q) by (unfold Q; lra). assert (BQ : B <= Q) by (unfold Q; lra).
  set (e := bpow radix2 (-50) * Q + bpow radix2 (-1073)).
  pose proof (tiny_le (-1073) ltac:(lia)) as [T0 T1]. pose proof (tiny_le (-1074) ltac:(lia)) as [T2 T3].
  assert (P50 : bpow radix2 (-50) = 8 * u53) by (rewrite u53_val; pow2; lra).
  assert (P52 : bpow radix2 (-52) = 2 * u53) by (rewrite u53_val; pow2; lra).
  assert (P45 : bpow radix2 (-45) = 256 * u53) by (rewrite u53_val; pow2; lra).
  assert (P46 : bpow radix2 (-46) = 128 * u53) by (rewrite u53_val; pow2; lra).
  assert (U : u53 = / 9007199254740992) by apply u53_val. change (2 ^ 60)%Z with 1152921504606846976%Z in T1, T3.
  assert (He0 : 0 <= e) by (unfold e; rewrite P50; assert (0 <= u53 * Q) by (rewrite U; lra); lra).
  assert (HeQ : e <= 9 * u53 * (Q + 1)) by (unfold e; rewrite P50; rewrite U; lra).
  assert (HcK : forall i j, (i < j < n)%nat -> Rabs (IZR (nth (rank [i; j]) c 0%Z)) <= K).
  { intros i j0 Hij. destruct An as [_ Hv]. specialize (Hv i j0 Hij). rewrite ET in Hv.
    rewrite (value_at_rank ll n' 2 ltac:(lia) c 1) in Hv by (lia || (apply simplex2; lia)). apply (nth_error_nth _ _ 0%Z) in Hv.
    rewrite Hv. apply HK, Hij. }
  specialize (Hcl K B K0 HcK HB).
  assert (WC := weighted_close dot_ x n N Hdot C (upper ll t hd k) (upper ll t h k) wd (fun s => weight_at x r f s b) Q e Q0 He0).
  assert (HeQ' : e <= Q + 1) by (rewrite U in HeQ; lra). specialize (WC HeQ').
  assert (WC' : Rabs (dot_ (mk1 n (upper ll t hd k)) (mk1 n wd) - sumn n (fun s => upper ll t h k s * weight_at x r f s b)) <=
    INR n * bpow radix2 (-52) * (2 * (Q + e)) + 2 * e + Q * ((INR n + 1) * bpow radix2 (-52)) + 3 * INR n * (Q + 1) * bpow radix2 (-1074)).
  { apply WC; [|exact Sw|exact S1|].
    - intros s Hs. destruct (Hcl k s Hk Hs) as [A1 A2]. split; [|split; [exact A1|exact A2]].
      unfold upper. destruct (_ && _)%bool; [apply double_nth, Dhd|exact double_0].
    - intros s Hs. destruct (Hw s Hs) as (_ & W1 & W2 & _ & W3 & _ & W4). auto. }
  clear WC. set (D := dot_ _ _) in *. set (SM := sumn n (fun s => upper ll t h k s * weight_at x r f s b)) in *.
  assert (LK : lift x r f (fun i => nth i g 0) eta k b = nth k g 0 + SM).
  { rewrite <- (f_all_lift x f r), (Fm b k Bk). f_equal. unfold SM. rewrite (sumn_ext n _ (fun s => full ll t h k s * weight_at x r f s b)) by (intros s _; rewrite (f_all_weight x f r); reflexivity).
    symmetry. apply upper_full. intros s Hs. assert (Hsn : (s < n)%nat) by lia. destruct (Hw s Hsn) as (_ & _ & _ & _ & _ & W5 & _). apply W5, Mk, Hs. }
  assert (SMb : Rabs SM <= Q).
  { unfold SM. eapply Rle_trans; [apply sumn_abs|]. apply Rle_trans with (sumn n (fun s => Q * weight_at x r f s b)).
    - apply sumn_le. intros s Hs. destruct (Hw s Hs) as (_ & _ & _ & _ & W3 & _). rewrite Rabs_mult, (Rabs_right (weight_at _ _ _ _ _)) by lra.
      apply Rmult_le_compat_r; [exact W3|]. apply (Hcl k s Hk Hs).
    - rewrite sumn_scal, S1. lra. }
  set (E := INR n * bpow radix2 (-52) * (2 * (Q + e)) + 2 * e + Q * ((INR n + 1) * bpow radix2 (-52)) + 3 * INR n * (Q + 1) * bpow radix2 (-1074)) in *.
  set (nq := INR n * Q). assert (Nq : Q <= nq) by (unfold nq; nra). assert (Nq2 : nq <= 2345 * Q) by (unfold nq; nra).
  assert (HE : E <= u53 * (7 * nq + 21 * Q + 2 * INR n + 19)).
  { assert (A1 : INR n * bpow radix2 (-52) * (2 * (Q + e)) <= 4 * u53 * (nq + INR n * (9 * u53 * (Q + 1)))).
    { rewrite P52. replace (INR n * (2 * u53) * (2 * (Q + e))) with (4 * u53 * (nq + INR n * e)) by (unfold nq; ring).
      apply Rmult_le_compat_l; [rewrite U; lra|]. apply Rplus_le_compat_l, Rmult_le_compat_l; [lra|exact HeQ]. }
    assert (A2 : 3 * INR n * (Q + 1) * bpow radix2 (-1074) <= 3 * (nq + INR n) * / 1152921504606846976).
    { replace (3 * INR n * (Q + 1)) with (3 * (nq + INR n)) by (unfold nq; ring). apply Rmult_le_compat_l; lra. }
    replace (INR n * (9 * u53 * (Q + 1))) with (9 * u53 * (nq + INR n)) in A1 by (unfold nq; ring).
    unfold E. replace (Q * ((INR n + 1) * bpow radix2 (-52))) with ((nq + Q) * bpow radix2 (-52)) by (unfold nq; ring). rewrite P52 in *.
    eapply Rle_trans; [apply Rplus_le_compat; [apply Rplus_le_compat_r, Rplus_le_compat; [exact A1|apply Rmult_le_compat_l; [lra|exact HeQ]]|exact A2]|].
    clearbody e E nq. clear - U Nq Nq2 N1 N2 Q0. rewrite U. lra. }
  assert (HE0 : 0 <= E) by (eapply Rle_trans; [apply Rabs_pos|exact WC']).
  destruct (angle_close (nth k g 0 + D) (lift x r f (fun i => nth i g 0) eta k b) E (2 * Q + 1)) as (z & Hz).
  - rewrite LK. replace (nth k g 0 + D - (nth k g 0 + SM)) with (D - SM) by ring. exact WC'.
  - replace (nth k g 0 + D) with (nth k g 0 + (SM + (D - SM))) by ring. eapply Rle_trans; [apply Rabs_triang|]. specialize (HB k Hk).
    assert (Rabs (SM + (D - SM)) <= Q + E) by (eapply Rle_trans; [apply Rabs_triang|]; lra).
    assert (B <= Q / 2) by (unfold Q; lra). rewrite U in HE. lra.
  - exact HE0.
  - eexists. split; [exact R1|]. destruct two_pi_bounds as [TB TD]. split; [apply np_mod_double; [lra|apply dbl_dbl|exact TD]|].
    split; [apply (np_mod_range _ two_pi_d); [lra|exact TD]|].
    exists (z + eta k j)%Z. pose proof (Dl b k j Bk Hj) as Dkj. rewrite !(f_all_lift x f r) in Dkj.
    replace (lift x r f (fun i => nth i g 0) eta j b + IZR (z + eta k j)) with (lift x r f (fun i => nth i g 0) eta k b + IZR z) by (rewrite plus_IZR; lra).
    eapply Rle_trans; [exact Hz|]. unfold row_error. fold Q. rewrite P45, P46.
    replace (128 * u53 * (INR n + 6) * (Q + 1)) with (128 * u53 * (nq + INR n + 6 * Q + 6)) by (unfold nq; ring). rewrite U in *. lra.
Qed.
End RowD.

(** ** Inversion of a successful call *)
Section CallD.
Variables (sum_ : list R -> R) (dot_ : list R -> list R -> R).

Lemma coordinates_d_inv ext e T cs r t f check rows g :
  coordinates_d sum_ dot_ ext e T cs r t f check = Ok (rows, g) ->
  exists M0 vecs etas W hf A,
    make_delta0 Rltb (x_junk ext) (em_dist_land_land e) t T = Ok M0 /\
    map_res (fun c => sparse_cocycle_to_vector (x_argsort ext) c T (em_n_landmarks e)) cs = Ok vecs /\
    (if check then repair_all Rltb (x_junk ext) (em_prime e) (x_milp ext) (em_dist_land_land e) t T vecs = Ok etas else etas = vecs) /\
    make_inner_product Rltb (x_junk ext) (em_dist_land_land e) t T = Ok W /\
    map_res (fun c => integrate_harmonic_representative_d sum_ (x_lsqr ext) c M0 (snd W)) etas = Ok hf /\
    map_res (fun hi => sparse_integrate_d dot_ (fst hi) (snd hi) (fst (get_covering_partition_d sum_ (em_dist_land_data e) r f))
       (snd (get_covering_partition_d sum_ (em_dist_land_data e) r f)) (em_dist_land_land e) t T) hf = Ok A /\
    ((length cs <= 1)%nat -> rows = A /\ g = None) /\
    ((1 < length cs)%nat -> exists gm L B' U,
       gram_matrix_d sum_ dot_ (map fst hf) (fst W) = Ok gm /\ x_cholesky ext gm = Ok L /\ lll_d dbl dot_ (x_fuel ext) L = Ok (B', U) /\
       linear_combination_d dot_ A U = Ok rows /\ g = Some (gm, times_transpose_d dot_ B', map (map IZR) U)).
Proof.
  unfold coordinates_d; intros H. destruct (get_covering_partition_d sum_ (em_dist_land_data e) r f) as [varphi ball]; cbn [fst snd].
  destruct (make_delta0 _ _ _ _ _) as [M0|]; cbn [bind] in H; [|discriminate].
  destruct (map_res _ cs) as [vecs|]; cbn [bind] in H; [|discriminate].
  destruct (if check then _ else _) as [etas|] eqn:Ech in H; cbn [bind] in H; [|discriminate].
  destruct (make_inner_product _ _ _ _ _) as [W|]; cbn [bind] in H; [|discriminate].
  destruct (map_res _ etas) as [hf|] eqn:Ehf in H; cbn [bind] in H; [|discriminate].
  destruct (map_res _ hf) as [A|] eqn:EA in H; cbn [bind] in H; [|discriminate].
  exists M0, vecs, etas, W, hf, A. split; [reflexivity|]. split; [reflexivity|].
  split; [destruct check; [exact Ech|injection Ech as <-; reflexivity]|].
  split; [reflexivity|]. split; [exact Ehf|]. split; [exact EA|].
  destruct (Nat.ltb_spec 1 (length cs)) as [Hl|Hl].
  - split; [lia|intros _]. destruct (gram_matrix_d _ _ _ _) as [gm|]; cbn [bind] in H; [|discriminate].
    unfold reduce_circular_coordinates_d in H. destruct (x_cholesky ext gm) as [L|] eqn:EL; cbn [bind] in H; [|discriminate].
    destruct (lll_d dbl dot_ (x_fuel ext) L) as [[B' ch]|] eqn:El; cbn [bind] in H; [|discriminate]. cbn [snd fst] in H.
    destruct (linear_combination_d dot_ A ch) as [rs|] eqn:Elc; cbn [bind fst snd] in H; [|discriminate].
    injection H as <- <-. exists gm, L, B', ch. repeat split; assumption.
  - split; [intros _; injection H as <- <-; split; reflexivity|lia].
Qed.

Lemma coordinates_d_ext ext e e' T cs r t f check : same_data e e' ->
  coordinates_d sum_ dot_ ext e' T cs r t f check = coordinates_d sum_ dot_ ext e T cs r t f check.
Proof. intros (A1 & A2 & A3 & A4 & A5 & A6 & A7); unfold coordinates_d. rewrite A1, A4, A5, A7; reflexivity. Qed.

Lemma radius_effect_d e perc b d sr : aged e (fst (cover_radius_d e perc b d sr)) /\
  em_cocycles (fst (cover_radius_d e perc b d sr)) = em_cocycles e.
Proof.
  unfold cover_radius_d; destruct (Rltb d _); cbn [fst]; [split; [apply aged_refl|reflexivity]|].
  split; [|reflexivity]. split; [repeat split|split; [reflexivity|split; [reflexivity|]]].
  cbn; intros cs E; exists cs; split; [exact E|]. apply Forall2_refl'; intros c; exists 0%nat; reflexivity.
Qed.

Lemma call_anatomy_d ext x perc idxs f sr check x' rows dgm cs :
  nth_error (em_dgms (t_em x)) 1 = Some dgm -> nth_error (em_cocycles (t_em x)) 1 = Some cs -> length cs = length dgm ->
  get_coordinates_d sum_ dot_ ext x perc idxs f sr check = (x', Ok rows) ->
  exists reps birth death lifted r t g,
    map_res (fun k => get_representative_cocycle (t_em x) k 1) idxs = Ok reps /\ idxs <> [] /\
    In birth (map (fun r => fst (fst r)) reps) /\ (forall y, In y (map (fun r => fst (fst r)) reps) -> y <= birth) /\
    In death (map (fun r => snd (fst r)) reps) /\ (forall y, In y (map (fun r => snd (fst r)) reps) -> death <= y) /\
    birth < death /\ (if sr then dbl (2 * birth) else birth) <= death /\
    (r, t) = get_cover_radius_d perc birth death sr /\
    em_rips_threshold (t_em x') = Some t /\ em_r_cover (t_em x') = Some r /\
    Forall2 (fun rep lc => exists m, lc = Nat.iter (S m) (lift_to_integer_cocycle (em_prime (t_em x))) (snd rep)) reps lifted /\
    coordinates_d sum_ dot_ ext (t_em x) (t_table x) lifted r t f check = Ok (rows, g) /\
    (forall g0 g1 ch, g = Some (g0, g1, ch) -> t_change_basis x' = Some ch /\ t_original_gram x' = Some g0).
Proof.
  intros E1 E2 L E. unfold get_coordinates_d in E.
  destruct (map_res _ idxs) as [reps|] eqn:Er; [|injection E as _ E; discriminate].
  pose proof Er as Er0. apply (reps_char _ dgm cs idxs reps E1 E2 L) in Er; destruct Er as [F Ereps].
  destruct reps as [|rep0 reps']; [cbn in E; injection E as _ E; discriminate|].
  destruct (np_max_ok (map (fun r => fst (fst r)) (rep0 :: reps')) ltac:(discriminate)) as (birth & Eb & Hb1 & Hb2).
  destruct (np_min_ok (map (fun r => snd (fst r)) (rep0 :: reps')) ltac:(discriminate)) as (death & Ed & Hd1 & Hd2).
  set (reps := rep0 :: reps') in *. rewrite Eb, Ed in E.
  destruct (Rleb death birth) eqn:Elt; [injection E as _ E; discriminate|].
  assert (Hlt : birth < death) by (unfold Rleb in Elt; destruct (Rle_dec death birth); [discriminate|lra]).
  destruct (lift_aged _ idxs dgm cs E1 E2 F) as (store & cs' & EL & A1 & N1 & L1 & H1). rewrite EL in E.
  pose proof (radius_effect_d (set_cocycles (t_em x) store) perc birth death sr) as [A2 K2].
  destruct (cover_radius_d (set_cocycles (t_em x) store) perc birth death sr) as [e2 radius] eqn:Eg. cbn [fst] in A2, K2.
  unfold cover_radius_d in Eg. destruct (get_cover_radius_d perc birth death sr) as [r t] eqn:Ert. cbn [fst snd] in Eg. set (start := if sr then dbl (2 * birth) else birth) in *.
  destruct (Rltb death start) eqn:Els; injection Eg as Ee2 Erad; subst radius; [cbn [bind] in E; injection E as _ E; discriminate|].
  apply Rltb_false in Els.
  cbn [bind fst snd] in E.
  assert (D2 : nth_error (em_dgms e2) 1 = Some dgm) by (destruct A2 as ((_ & -> & _) & _); exact E1).
  assert (M2 : nth_error (em_cocycles e2) 1 = Some cs') by (rewrite K2; exact N1).
  assert (Fp1 : Forall (fun k => class_pos (length cs') k <> None) idxs) by (rewrite L1; exact F).
  rewrite (proj2 (reps_char e2 dgm cs' idxs _ D2 M2 ltac:(congruence)) (conj Fp1 eq_refl)) in E. cbn [bind] in E.
  set (lifted := map snd _) in E.
  assert (SD : same_data (t_em x) e2) by (eapply same_data_trans; [exact (proj1 A1)|exact (proj1 A2)]).
  rewrite (coordinates_d_ext ext (t_em x) e2 _ _ _ _ _ _ SD) in E.
  destruct (coordinates_d sum_ dot_ ext (t_em x) (t_table x) lifted r t f check) as [[rows0 g]|] eqn:EC; [|injection E as _ E; discriminate].
  assert (T2 : em_rips_threshold e2 = Some t /\ em_r_cover e2 = Some r) by (subst e2; split; reflexivity).
  assert (G : t_em x' = e2 /\ rows0 = rows /\
    (forall g0 g1 ch, g = Some (g0, g1, ch) -> t_change_basis x' = Some ch /\ t_original_gram x' = Some g0)).
  { destruct g as [[[g0 g1] ch]|]; injection E as <- <-; cbn; repeat split; try discriminate; intros; congruence. }
  destruct G as (Gx & -> & G2). clear E.
  exists reps, birth, death, lifted, r, t, g. rewrite Gx in *.
  repeat match goal with |- _ /\ _ => split end; try assumption; try (symmetry; assumption); try reflexivity; try (apply T2).
  - intros ->; subst reps; discriminate Er0.
  - rewrite Ereps; unfold lifted. rewrite map_map; cbn [snd]. rewrite L1.
    assert (Hin : forall k, In k idxs -> exists m, nth (posn (length cs) k) cs' no_c =
       Nat.iter (S m) (lift_to_integer_cocycle (em_prime (t_em x))) (nth (posn (length cs) k) cs no_c)).
    { intros k Hk. rewrite Forall_forall in F; specialize (F k Hk); unfold posn.
      destruct (class_pos (length cs) k) as [i|] eqn:Ep; [|congruence].
      assert (Hi : (i < length cs)%nat) by (destruct k; cbn in Ep; [exact (pos_lt _ _ _ Ep)|discriminate]).
      destruct (nth_error cs i) as [c|] eqn:Ec; [|apply nth_error_None in Ec; lia].
      rewrite (nth_error_nth _ _ _ (H1 i c Ec)), (nth_error_nth _ _ _ Ec).
      pose proof (times_pos _ idxs k i Hk Ep). destruct (times (length cs) idxs i) as [|m]; [lia|]. exists m; reflexivity. }
    clear - Hin. induction idxs as [|k idxs IH]; cbn [map]; constructor.
    + cbn [snd]. apply Hin; left; reflexivity.
    + apply IH; intros; apply Hin; right; assumption.
Qed.

(** ** The recombination *)
Lemma combine_rows_d x N r f A k U rows eps (g : nat -> nat -> R) (eta : nat -> nat -> nat -> Z) :
  dot_sound dot_ -> (1 <= k)%nat -> (Z.of_nat k <= 2 ^ 50)%Z -> length A = k -> matrix k k U -> 0 <= eps ->
  Forall (Forall (fun z => (Z.abs z <= 2 ^ 53)%Z)) U ->
  linear_combination_d dot_ A U = Ok rows ->
  (forall h row, nth_error A h = Some row -> nearly_classified_by x N r f eps row (g h) (eta h)) ->
  length rows = k /\
  forall i row, nth_error rows i = Some row ->
    nearly_classified_by x N r f (combine_error k (sumn k (fun h => Rabs (IZR (at2 0%Z U i h)))) eps) row
      (fun s => sumn k (fun h => IZR (at2 0%Z U i h) * g h s))
      (fun a c => sumnZ k (fun h => (at2 0%Z U i h * eta h a c)%Z)).
Proof.
  intros Hd Hk Hk2 LA [LU FU] He HB E HA. unfold linear_combination_d in E.
  assert (A0 : exists a0, nth_error A 0 = Some a0 /\ hd [] A = a0) by (destruct A as [|a0 A']; [cbn in LA; lia|exists a0; auto]). destruct A0 as (a0 & A0 & Ah). rewrite Ah in E.
  destruct (negb _); cbn [bind] in E; [|discriminate]. destruct (_ =? _)%nat; cbn [bind] in E; [|discriminate].
  injection E as <-. split; [rewrite map_length; exact LU|]. 
  assert (LN : length a0 = N) by (apply (HA 0%nat a0 A0)). rewrite LN.
  intros i row Hi. rewrite nth_error_map in Hi. destruct (nth_error U i) as [u|] eqn:Eu; [|discriminate]. cbn [option_map] in Hi; injection Hi as <-.
  assert (Lu : length u = k) by (rewrite Forall_forall in FU; apply FU, (nth_error_In _ _ Eu)).
  assert (Hu : forall h, at2 0%Z U i h = nth h u 0%Z) by (intros h; unfold at2; rewrite (nth_error_nth _ _ [] Eu); reflexivity).
  assert (Mu : map IZR u = mk1 k (fun h => IZR (at2 0%Z U i h))).
  { apply nth_error_ext; intros h. unfold mk1. rewrite nth_error_map. destruct (Nat.lt_ge_cases h k) as [Hh|Hh].
    - rewrite nth_error_map_seq by exact Hh. rewrite Hu, (nth_error_nth' u 0%Z) by lia. reflexivity.
    - rewrite (proj2 (nth_error_None u h)) by lia. symmetry. apply nth_error_None. rewrite map_length, seq_length. exact Hh. }
  assert (Du : forall h, (h < k)%nat -> double (IZR (at2 0%Z U i h))).
  { intros h Hh. apply double_IZR. rewrite Hu. rewrite Forall_forall in HB. specialize (HB u (nth_error_In _ _ Eu)). rewrite Forall_forall in HB. apply HB, nth_In. lia. }
  split; [rewrite map_length, seq_length; reflexivity|]. intros b Hb. rewrite nth_error_map_seq by exact Hb. split.
  - intros j Hj.
    assert (Ex : forall h, exists v m, (h < k)%nat -> nth_error (map (fun cm => nth b cm None) A) h = Some (Some v) /\ double v /\ 0 <= v <= two_pi_d /\
       Rabs (v - 2 * PI * (lift x r f (g h) (eta h) j b + IZR m)) <= eps).
    { intros h. destruct (nth_error A h) as [rw|] eqn:Er.
      - destruct (HA h rw Er) as [_ H]. destruct (H b Hb) as [H1 _]. destruct (H1 j Hj) as (v & V1 & V2 & V3 & m & V4).
        exists v, m. intros _. rewrite nth_error_map, Er. cbn [option_map]. rewrite (nth_error_nth _ _ None V1). auto.
      - exists 0, 0%Z. intros Hh. apply nth_error_None in Er. lia. }
    assert (Vs : exists v m, forall h, (h < k)%nat -> nth_error (map (fun cm => nth b cm None) A) h = Some (Some (v h)) /\ double (v h) /\ 0 <= v h <= two_pi_d /\
       Rabs (v h - 2 * PI * (lift x r f (g h) (eta h) j b + IZR (m h))) <= eps).
    { clear - Ex. revert Ex. induction k as [|k' IH]; intros Ex; [exists (fun _ => 0), (fun _ => 0%Z); intros; lia|].
      destruct IH as (v & m & H). { intros h. destruct (Ex h) as (v & m & H). exists v, m. intros Hh. apply H. lia. }
      destruct (Ex k') as (v' & m' & H'). exists (fun h => if (h =? k')%nat then v' else v h), (fun h => if (h =? k')%nat then m' else m h).
      intros h Hh. destruct (Nat.eqb_spec h k') as [->|Ne]; [apply H'; lia|apply H; lia]. }
    destruct Vs as (v & m & Hv).
    assert (Ec : map (fun cm => nth b cm None) A = map Some (mk1 k v)).
    { unfold mk1. rewrite map_map. apply nth_error_ext; intros h. destruct (Nat.lt_ge_cases h k) as [Hh|Hh].
      - rewrite nth_error_map_seq by exact Hh. apply Hv, Hh.
      - rewrite (proj2 (nth_error_None _ h)) by (rewrite map_length; lia). symmetry. apply nth_error_None. rewrite map_length, seq_length. exact Hh. }
    rewrite Ec, Mu. unfold dot_nan_d. rewrite numbers_some. cbn [option_map].
    destruct (dot_close dot_ k (fun h => IZR (at2 0%Z U i h)) v Hd Hk2) as [Dy Ey]. { intros h Hh. split; [apply Du, Hh|apply Hv, Hh]. }
    set (y := dot_ _ _) in *. set (S := sumn k (fun h => Rabs (IZR (at2 0%Z U i h)))). set (LL := lift x r f _ _ j b).
    assert (ELL : LL = sumn k (fun h => IZR (at2 0%Z U i h) * lift x r f (g h) (eta h) j b)) by (unfold LL; apply (lift_combination x r f k (fun h => at2 0%Z U i h) g eta j b)).
    set (Mz := sumnZ k (fun h => (at2 0%Z U i h * m h)%Z)).
    destruct two_pi_bounds as [TB TD].
    destruct (circle_of y (2 * PI * (LL + IZR Mz))) as (q & Hq).
    eexists. split; [reflexivity|]. split; [apply np_mod_double; [lra|exact Dy|exact TD]|]. split; [apply (np_mod_range _ two_pi_d); [lra|exact TD]|].
    exists (Mz - q)%Z. replace (2 * PI * (LL + IZR (Mz - q))) with (2 * PI * (LL + IZR Mz) - 2 * PI * IZR q) by (rewrite minus_IZR; ring).
    eapply Rle_trans; [exact Hq|].
    assert (S0 : 0 <= S) by (apply sumn_nonneg; intros; apply Rabs_pos).
    assert (B1 : sumn k (fun h => Rabs (IZR (at2 0%Z U i h) * v h)) <= 8 * S).
    { unfold S. rewrite <- sumn_scal. apply sumn_le. intros h Hh. destruct (Hv h Hh) as (_ & _ & V3 & _). rewrite Rabs_mult, (Rabs_right (v h)) by lra.
      rewrite (Rmult_comm 8). apply Rmult_le_compat_l; [apply Rabs_pos|lra]. }
    assert (B2 : Rabs (sumn k (fun h => IZR (at2 0%Z U i h) * v h) - 2 * PI * (LL + IZR Mz)) <= S * eps).
    { unfold Mz. rewrite ELL, sumnZ_IZR, <- sumn_add, <- sumn_scal, <- sumn_sub. eapply Rle_trans; [apply sumn_abs|].
      unfold S. rewrite (Rmult_comm _ eps), <- sumn_scal. apply sumn_le. intros h Hh. destruct (Hv h Hh) as (_ & _ & _ & V4).
      replace (IZR (at2 0%Z U i h) * v h - 2 * PI * (IZR (at2 0%Z U i h) * lift x r f (g h) (eta h) j b + IZR (at2 0%Z U i h * m h)))
        with (IZR (at2 0%Z U i h) * (v h - 2 * PI * (lift x r f (g h) (eta h) j b + IZR (m h)))) by (rewrite mult_IZR; ring).
      rewrite Rabs_mult, (Rmult_comm eps). apply Rmult_le_compat_l; [apply Rabs_pos|exact V4]. }
    assert (K1 : 1 <= INR k) by (rewrite INR_IZR_INZ; apply IZR_le; lia).
    assert (K2 : INR k <= 1125899906842624) by (rewrite INR_IZR_INZ; apply IZR_le; exact Hk2).
    assert (P52 : bpow radix2 (-52) = 2 * u53) by (rewrite u53_val; pow2; lra). assert (P50 : bpow radix2 (-50) = 8 * u53) by (rewrite u53_val; pow2; lra).
    assert (P46 : bpow radix2 (-46) = 128 * u53) by (rewrite u53_val; pow2; lra). pose proof u53_val as Uv.
    pose proof (tiny_le (-1074) ltac:(lia)) as [T0 T1]. change (2 ^ 60)%Z with 1152921504606846976%Z in T1.
    set (ks := INR k * S). assert (Ks : 0 <= ks) by (unfold ks; nra). assert (Ks2 : ks <= 1125899906842624 * S) by (unfold ks; nra).
    assert (B3 : Rabs (y - sumn k (fun h => IZR (at2 0%Z U i h) * v h)) <= 16 * u53 * ks + INR k * / 1152921504606846976).
    { eapply Rle_trans; [exact Ey|]. rewrite P52. apply Rplus_le_compat; [|apply Rmult_le_compat_l; lra].
      replace (16 * u53 * ks) with (INR k * (2 * u53) * (8 * S)) by (unfold ks; ring). apply Rmult_le_compat_l; [rewrite Uv; lra|exact B1]. }
    assert (B4 : Rabs (sumn k (fun h => IZR (at2 0%Z U i h) * v h)) <= 8 * S) by (eapply Rle_trans; [apply sumn_abs|exact B1]).
    assert (B5 : Rabs y <= 8 * S + (16 * u53 * ks + INR k * / 1152921504606846976)).
    { replace y with (sumn k (fun h => IZR (at2 0%Z U i h) * v h) + (y - sumn k (fun h => IZR (at2 0%Z U i h) * v h))) by ring. eapply Rle_trans; [apply Rabs_triang|]. lra. }
    assert (B6 : Rabs (y - 2 * PI * (LL + IZR Mz)) <= 16 * u53 * ks + INR k * / 1152921504606846976 + S * eps).
    { replace (y - 2 * PI * (LL + IZR Mz)) with ((y - sumn k (fun h => IZR (at2 0%Z U i h) * v h)) + (sumn k (fun h => IZR (at2 0%Z U i h) * v h) - 2 * PI * (LL + IZR Mz))) by ring.
      eapply Rle_trans; [apply Rabs_triang|]. lra. }
    unfold combine_error. fold S. rewrite P46.
    replace (128 * u53 * (INR k + 1) * (S + 1)) with (128 * u53 * (ks + INR k + S + 1)) by (unfold ks; ring).
    eapply Rle_trans; [apply Rplus_le_compat; [exact B6|rewrite P50; apply Rmult_le_compat_l; [rewrite Uv; lra|apply Rplus_le_compat_r, B5]]|].
    clear - Uv Ks Ks2 K1 K2 S0. clearbody ks S. rewrite Uv. lra.
  - intros Hn. unfold dot_nan_d. rewrite numbers_none; [reflexivity|].
    destruct (HA 0%nat a0 A0) as [_ H]. destruct (H b Hb) as [_ H2]. apply nth_error_In with 0%nat. rewrite nth_error_map, A0. cbn [option_map]. rewrite (nth_error_nth _ _ None (H2 Hn)). reflexivity.
Qed.
End CallD.

Lemma gram_shape_d sum_ dot_ vs W gm : gram_matrix_d sum_ dot_ vs W = Ok gm -> matrix (length vs) (length vs) gm.
Proof.
  intros E; split; [apply (map_res_length _ _ _ E)|].
  apply Forall_forall; intros row Hr; apply In_nth_error in Hr; destruct Hr as (i & Hi).
  apply map_res_ok2 in E. destruct (f2_nth2 _ _ _ _ _ E Hi) as (v & _ & Ev). apply (map_res_length _ _ _ Ev).
Qed.
Lemma nearly_weaken x N r f eps eps' row g g' eta eta' : eps <= eps' ->
  (forall j b, lift x r f g' eta' j b = lift x r f g eta j b) ->
  nearly_classified_by x N r f eps row g eta -> nearly_classified_by x N r f eps' row g' eta'.
Proof.
  intros He Hl [L H]. split; [exact L|]. intros b Hb. destruct (H b Hb) as [H1 H2]. split; [|exact H2].
  intros j Hj. destruct (H1 j Hj) as (v & V1 & V2 & V3 & m & V4). exists v. repeat (split; [assumption|]). exists m. rewrite Hl. lra.
Qed.

(** ** When a call with one class returns *)
Section SingleD.
Variables (sum_ : list R -> R) (dot_ : list R -> list R -> R) (x : tor) (n N : nat) (ext : externals).
Hypothesis C : consistent x n N.
Hypothesis HE : sound_numpy ext.
Notation ll := (em_dist_land_land (t_em x)).
Notation ld := (em_dist_land_data (t_em x)).
Notation T := (t_table x).

Lemma single_front_d perc idx f (sr check : bool) b d c :
  class_of x idx b d c -> b < d -> (if sr then dbl (2 * b) else b) <= d ->
  let r := fst (get_cover_radius_d perc b d sr) in let t := snd (get_cover_radius_d perc b d sr) in
  snd (get_coordinates_d sum_ dot_ ext x perc [idx] f sr check) =
  (r <- coordinates_d sum_ dot_ ext (t_em x) T [lift_to_integer_cocycle (em_prime (t_em x)) c] r t f check ;; Ok (fst r)).
Proof.
  intros Hc Hbd Hst r t.
  destruct (get_rep_inv x n N idx b d c C Hc) as (dgm & cs & i & G1 & G2 & G3 & Ep & Ed & Ec).
  unfold get_coordinates_d. cbn [map_res]. pose proof (proj1 (em_class1 _ _ _ _ _) Hc) as Hc'. rewrite Hc'; cbn [bind map fst snd].
  cbn [np_max np_min fold_left].
  assert (Hl : Rleb d b = false) by (unfold Rleb; destruct (Rle_dec d b); [lra|reflexivity]). rewrite Hl.
  assert (F : Forall (fun k => class_pos (length cs) k <> None) [idx]) by (constructor; [congruence|constructor]).
  destruct (lift_aged (t_em x) [idx] dgm cs G1 G2 F) as (store & cs' & -> & A1 & N1 & L1 & H1).
  pose proof (radius_effect_d (set_cocycles (t_em x) store) perc b d sr) as [A2 K2].
  destruct (cover_radius_d (set_cocycles (t_em x) store) perc b d sr) as [e2 radius] eqn:Eg. cbn [fst] in A2, K2.
  unfold cover_radius_d in Eg. rewrite (proj2 (Rltb_false _ _) Hst) in Eg. injection Eg as Ee2 <-.
  cbn [bind fst snd]. fold r t.
  assert (D2 : nth_error (em_dgms e2) 1 = Some dgm) by (destruct A2 as ((_ & -> & _) & _); exact G1).
  assert (M2 : nth_error (em_cocycles e2) 1 = Some cs') by (rewrite K2; exact N1).
  rewrite (rep_ok e2 dgm cs' idx D2 M2 ltac:(congruence)). rewrite L1, Ep.
  destruct idx as [z|]; [|discriminate Ep]. cbn [bind map snd].
  assert (SD : same_data (t_em x) e2) by (eapply same_data_trans; [exact (proj1 A1)|exact (proj1 A2)]).
  rewrite (coordinates_d_ext sum_ dot_ ext (t_em x) e2 _ _ _ _ _ _ SD).
  pose proof (H1 i c Ec) as Hi.
  assert (Tm : times (length cs) [PyInt z] i = 1%nat) by (unfold times; cbn [filter]; rewrite Ep, Nat.eqb_refl; reflexivity).
  rewrite Tm in Hi. rewrite (nth_error_nth _ _ (mkCocycle 0 []) Hi).
  change (Nat.iter 1 (lift_to_integer_cocycle (em_prime (t_em x))) c) with (lift_to_integer_cocycle (em_prime (t_em x)) c).
  destruct (coordinates_d sum_ dot_ ext (t_em x) _ _ _ _ _ _) as [[rows g]|e]; cbn [snd bind fst]; [destruct g as [[[? ?] ?]|]|]; reflexivity.
Qed.

Hypothesis Hsum : forall l, added_up l (sum_ l).
Variables (f : R -> R -> R) (r t : R).
Hypothesis Hf : forall i b d, entry ld i b d -> d < r -> 0 < f d r /\ double (f d r).
Notation vp := (get_covering_partition_d sum_ ld r f).

Lemma parts_d M0 W etas : make_delta0 Rltb (x_junk ext) ll t T = Ok M0 -> make_inner_product Rltb (x_junk ext) ll t T = Ok W ->
  Forall (fun v => length v = comb n 2) etas ->
  exists hf A,
    map_res (fun c => integrate_harmonic_representative_d sum_ (x_lsqr ext) c M0 (snd W)) etas = Ok hf /\
    map_res (fun hi => sparse_integrate_d dot_ (fst hi) (snd hi) (fst vp) (snd vp) ll t T) hf = Ok A /\
    Forall (fun hi => length (fst hi) = comb n 2) hf.
Proof.
  intros E0 EW F. destruct (sq_ll x n N C) as [Sq L]. destruct (co_table _ _ _ C) as (n' & Hn' & ET). pose proof (co_pos _ _ _ C) as Hp.
  induction F as [|c l Lc F (hf & A & E1 & E2 & E3)]; [exists [], []; split; [reflexivity|split; [reflexivity|constructor]]|].
  rewrite ET in E0, EW.
  destruct (integrate_ok ll t n' 2 Sq ltac:(lia) ltac:(lia) (x_lsqr ext) c (x_junk ext) M0 W ltac:(lia) (proj2 HE) E0 EW ltac:(congruence))
    as (P & b & g & h & _ & EP & _ & _ & _ & _ & _).
  rewrite (delta0_ok Rltb (x_junk ext) ll t n' 2 Sq ltac:(lia) ltac:(lia) (edges_fit (length ll) ltac:(lia))) in E0; apply Ok_inj in E0.
  rewrite (inner_product_ok Rltb (x_junk ext) ll t n' 2 Sq ltac:(lia) ltac:(lia) ltac:(pose proof (comb_2 (length ll)); nia)) in EW; apply Ok_inj in EW.
  assert (SP : s_cols P = length ll).
  { unfold spmm in EP. destruct (_ =? _)%nat; [|discriminate]. apply Ok_inj in EP. subst P M0. reflexivity. }
  assert (EI : exists h g, integrate_harmonic_representative_d sum_ (x_lsqr ext) c M0 (snd W) = Ok (h, g) /\ length h = comb (length ll) 2 /\ length g = length ll).
  { unfold integrate_harmonic_representative_d. rewrite EP; cbn [bind]. unfold matvec_d at 1. subst W; cbn [snd s_cols]. rewrite map_length, Lc, L, Nat.eqb_refl. cbn [bind].
    unfold matvec_d at 1. subst M0; cbn [s_cols s_rows]. rewrite (proj2 HE), SP, L, Nat.eqb_refl. cbn [bind]. eexists; eexists. split; [reflexivity|].
    split; [unfold vsub_d; rewrite map_length, combine_length, map_length, length_mk1, Lc, ?L; apply Nat.min_id|rewrite (proj2 HE), SP, ?L; reflexivity]. }
  destruct EI as (hd0 & g0 & Ei & Lh & Lg).
  destruct (part_d sum_ x n N Hsum C f r Hf) as (P1 & P2 & _ & _).
  destruct (sparse_integrate_d_ok dot_ ll t n' hd0 g0 (fst vp) (snd vp) N Sq ltac:(lia) Lh Lg ltac:(rewrite L; exact P1) P2 ltac:(rewrite L; apply (ball_lt sum_ x n N Hsum C f r Hf))) as (row & Er & _).
  rewrite <- ET in Er.
  exists ((hd0, g0) :: hf), (row :: A). cbn [map_res]. rewrite Ei; cbn [bind]. rewrite E1; cbn [bind fst snd map_res].
  rewrite Er; cbn [bind]. rewrite E2. split; [reflexivity|]. split; [reflexivity|]. constructor; [cbn [fst]; congruence|exact E3].
Qed.

Lemma coordinates_d_total lifted vecs etas (check : bool) :
  map_res (fun c => sparse_cocycle_to_vector (x_argsort ext) c T n) lifted = Ok vecs ->
  (if check then repair_all Rltb (x_junk ext) (em_prime (t_em x)) (x_milp ext) ll t T vecs else Ok vecs) = Ok etas ->
  Forall (fun v => length v = comb n 2) etas ->
  exists A gm, length A = length etas /\ matrix (length etas) (length etas) gm /\
    coordinates_d sum_ dot_ ext (t_em x) T lifted r t f check =
      if (1 <? length lifted)%nat then
        r <- reduce_circular_coordinates_d dot_ (x_fuel ext) (x_cholesky ext) A gm ;;
        Ok (fst (fst r), Some (gm, times_transpose_d dot_ (snd r), map (map IZR) (snd (fst r))))
      else Ok (A, None).
Proof.
  intros Ev Er F. destruct (matrices_ok x n N ext C t) as (M0 & W & E0 & EW). destruct (parts_d M0 W etas E0 EW F) as (hf & A & E1 & E2 & E3).
  destruct (sq_ll x n N C) as [Sq L]. destruct (co_table _ _ _ C) as (n' & Hn' & ET). pose proof (co_pos _ _ _ C) as Hp.
  assert (Eg : exists gm, gram_matrix_d sum_ dot_ (map fst hf) (fst W) = Ok gm).
  { pose proof EW as EW'. rewrite ET in EW'. rewrite (inner_product_ok Rltb (x_junk ext) ll t n' 2 Sq ltac:(lia) ltac:(lia) ltac:(pose proof (comb_2 (length ll)); nia)) in EW'; apply Ok_inj in EW'. subst W; cbn [fst].
    unfold gram_matrix_d. set (G := fun v : list R => map_res _ _).
    assert (Hl : forall v, In v (map fst hf) -> length v = comb n 2) by (intros v Hv; apply in_map_iff in Hv as (hi & <- & Hi); rewrite Forall_forall in E3; apply E3, Hi).
    set (WM := mkSparse _ _ _) in *. set (vs := map fst hf) in *.
    exists (map (fun v => map (fun w => dot_ (mk1 (s_rows (transpose WM)) (fun r0 => sum_ (map (fun e => dbl (IZR (snd e) * nth (snd (fst e)) v 0)) (filter (fun e => (fst (fst e) =? r0)%nat) (s_entries (transpose WM)))))) w) vs) vs).
    apply map_res_ok. intros v Hv. unfold G. apply map_res_ok. intros w Hw.
    unfold matvec_d at 1. cbn [transpose s_cols WM s_rows]. rewrite (Hl v Hv), L, Nat.eqb_refl. reflexivity. }
  destruct Eg as (gm & Eg).
  exists A, gm. split; [rewrite (map_res_length _ _ _ E2); apply (map_res_length _ _ _ E1)|].
  split. { pose proof (gram_shape_d _ _ _ _ _ Eg) as Mg. rewrite map_length, (map_res_length _ _ _ E1) in Mg. exact Mg. }
  unfold coordinates_d. destruct vp as [varphi ball]; cbn [fst snd] in *. rewrite E0; cbn [bind].
  rewrite (co_landmarks _ _ _ C), Ev; cbn [bind]. rewrite Er; cbn [bind]. rewrite EW; cbn [bind]. rewrite E1; cbn [bind].
  rewrite E2; cbn [bind]. rewrite Eg; cbn [bind]. reflexivity.
Qed.
End SingleD.

(** The first half of a call, forwards. *)
Lemma front_d sum_ dot_ ext x n N perc idxs f (sr check : bool) reps birth death :
  consistent x n N -> map_res (fun k => get_representative_cocycle (t_em x) k 1) idxs = Ok reps ->
  np_max (map (fun r => fst (fst r)) reps) = Ok birth -> np_min (map (fun r => snd (fst r)) reps) = Ok death ->
  birth < death -> (if sr then dbl (2 * birth) else birth) <= death ->
  let r := fst (get_cover_radius_d perc birth death sr) in let t := snd (get_cover_radius_d perc birth death sr) in
  exists lifted,
    Forall2 (fun rep lc => exists m, lc = Nat.iter (S m) (lift_to_integer_cocycle (em_prime (t_em x))) (snd rep)) reps lifted /\
    snd (get_coordinates_d sum_ dot_ ext x perc idxs f sr check) =
      (rr <- coordinates_d sum_ dot_ ext (t_em x) (t_table x) lifted r t f check ;; Ok (fst rr)).
Proof.
  intros C Er Eb Ed Hlt Hst r t. destruct (co_classes _ _ _ C) as (dgm & cs & E1 & E2 & L & Fe).
  unfold get_coordinates_d. rewrite Er, Eb, Ed. pose proof Er as Er0. apply (reps_char _ dgm cs idxs reps E1 E2 L) in Er; destruct Er as [F Ereps].
  assert (Hl : Rleb death birth = false) by (unfold Rleb; destruct (Rle_dec death birth); [lra|reflexivity]). rewrite Hl.
  destruct (lift_aged _ idxs dgm cs E1 E2 F) as (store & cs' & EL & A1 & N1 & L1 & H1). rewrite EL.
  pose proof (radius_effect_d (set_cocycles (t_em x) store) perc birth death sr) as [A2 K2].
  destruct (cover_radius_d (set_cocycles (t_em x) store) perc birth death sr) as [e2 radius] eqn:Eg. cbn [fst] in A2, K2.
  unfold cover_radius_d in Eg. rewrite (proj2 (Rltb_false _ _) Hst) in Eg. injection Eg as Ee2 <-. cbn [bind fst snd]. fold r t.
  assert (D2 : nth_error (em_dgms e2) 1 = Some dgm) by (destruct A2 as ((_ & -> & _) & _); exact E1).
  assert (M2 : nth_error (em_cocycles e2) 1 = Some cs') by (rewrite K2; exact N1).
  assert (Fp1 : Forall (fun k => class_pos (length cs') k <> None) idxs) by (rewrite L1; exact F).
  rewrite (proj2 (reps_char e2 dgm cs' idxs _ D2 M2 ltac:(congruence)) (conj Fp1 eq_refl)). cbn [bind].
  set (lifted := map snd _). exists lifted.
  assert (SD : same_data (t_em x) e2) by (eapply same_data_trans; [exact (proj1 A1)|exact (proj1 A2)]).
  rewrite (coordinates_d_ext sum_ dot_ ext (t_em x) e2 _ _ _ _ _ _ SD). split.
  - rewrite Ereps; unfold lifted. rewrite map_map; cbn [snd]. rewrite L1.
    assert (Hin : forall k, In k idxs -> exists m, nth (posn (length cs) k) cs' no_c =
       Nat.iter (S m) (lift_to_integer_cocycle (em_prime (t_em x))) (nth (posn (length cs) k) cs no_c)).
    { intros k Hk. rewrite Forall_forall in F; specialize (F k Hk); unfold posn.
      destruct (class_pos (length cs) k) as [i|] eqn:Ep; [|congruence].
      assert (Hi : (i < length cs)%nat) by (destruct k; cbn in Ep; [exact (pos_lt _ _ _ Ep)|discriminate]).
      destruct (nth_error cs i) as [c|] eqn:Ec; [|apply nth_error_None in Ec; lia].
      rewrite (nth_error_nth _ _ _ (H1 i c Ec)), (nth_error_nth _ _ _ Ec).
      pose proof (times_pos _ idxs k i Hk Ep). destruct (times (length cs) idxs i) as [|m]; [lia|]. exists m; reflexivity. }
    clear - Hin. induction idxs as [|k idxs IH]; cbn [map]; constructor.
    + cbn [snd]. apply Hin; left; reflexivity.
    + apply IH; intros; apply Hin; right; assumption.
  - destruct (coordinates_d sum_ dot_ ext (t_em x) _ _ _ _ _ _) as [[rows g]|e]; cbn [snd bind fst]; [destruct g as [[[? ?] ?]|]|]; reflexivity.
Qed.
