(** RoundCProjMap.v -- ComplexProjectiveCoords in double precision: the class map. *)
From Coq Require Import Reals List ZArith Lia Lra Psatz Permutation.
From Flocq Require Import Core.
From Verif Require Import Base BaseProofs CombinatorialModel SpecSimplex CombinatorialProofs DeltaModel SpecRips RipsProofs DeltaProofs DeltaFacts
  RealBase RealSum EMModel SpecEM EMProofs CohomologyModel LLLModel LLLProofs ToroidalModel SpecToroidal ToroidalProofs ComplexBase PPCAModel SpecPPCA PPCAProofs
  ClassMapModel SpecClassMap ClassMapProofs ComplexProjModel SpecComplexProj ComplexProjProofs ComplexProjFacts CircleProofs SpecRound RoundBase RoundModel RoundTorusModel RoundProofs RoundTorusProofs
  PropRound RoundPPCAModel SpecRoundPPCA RoundPPCAProofs RoundClassMap RoundLens PropRoundTorus RoundHarmonic RoundCProjModel SpecRoundCProj RoundCProj RoundCProjAngles HarmonicProofs SpecLLL.
Import ListNotations.
Local Open Scope R_scope.

Lemma covered_or e n N r b : matrix n N (em_dist_land_data e) -> (exists i, in_ball (em_dist_land_data e) r i b) \/ (forall i, ~ in_ball (em_dist_land_data e) r i b).
Proof. intros HM. destruct (in_ball_dec e n N r b HM) as [[i Hi]|H]; [left; exists i; exact Hi|right; exact H]. Qed.
Section Map.
Variables (sums : list R -> R) (cexp : R -> C) (e : em) (r t : R) (f : R -> R -> R) (n N : nat).
Hypothesis HL : matrix n n (em_dist_land_land e).
Hypothesis HM : matrix n N (em_dist_land_data e).
Hypothesis Hn : (1 <= n)%nat.
Hypothesis Hn2 : (Z.of_nat n <= 2345)%Z.
Hypothesis Hs : forall l, added_up l (sums l).
Hypothesis Hf : forall i b d, entry (em_dist_land_data e) i b d -> d < r -> double (f d r) /\ 0 < f d r.
Hypothesis Hov : em_overlaps_joined e r t.
Notation ld := (em_dist_land_data e).
Notation ll := (em_dist_land_land e).
Notation W := (fst (get_covering_partition_d sums ld r f)).
Notation balls := (snd (get_covering_partition_d sums ld r f)).

(** Rows made of computed units. *)
Lemma unit_rows eps (F : nat -> nat -> option C) b : 0 <= eps <= / 32 -> (b < N)%nat ->
  ((exists i, in_ball ld r i b) -> forall i, (i < n)%nat -> exists s z y, at2 None W i b = Some s /\ within eps z (cis y) /\
     F b i = Some (dbl (fst z * dbl (sqrt s)), dbl (snd z * dbl (sqrt s)))) ->
  (at2 None W 0 b = None -> forall i, (i < n)%nat -> F b i = None) ->
  ((exists i, in_ball ld r i b) -> nearly_unit_c (4 * eps + (INR n + 5) * bpow radix2 (-52)) (nth b (mk2 N n F) [])) /\
  ((forall i, ~ in_ball ld r i b) -> not_finite (nth b (mk2 N n F) [])).
Proof.
  intros He Hb HF HF0. destruct (partition_facts_d sums e r f n N HM Hn (small_n n Hn Hn2) Hs Hf) as (_ & _ & _ & P). destruct (P b Hb) as [P1 P2].
  rewrite (nth_error_nth _ _ [] (mk2_row N n _ b Hb)). split.
  - intros Hc. destruct (P1 Hc) as (w & S & Hw). specialize (HF Hc).
    set (G0 := fun i => match F b i with Some z => z | None => c0 end). exists (map G0 (seq 0 n)). split.
    + rewrite map_map. apply map_ext_in. intros i Hi. apply in_seq in Hi. destruct (HF i ltac:(lia)) as (s & z & y & _ & _ & E). unfold G0. rewrite E. reflexivity.
    + rewrite map_map, total_seq'. set (q := sumn n w) in *. set (D := bpow radix2 (-52)) in *. assert (D0 : u53 = D / 2) by (unfold D; rewrite u53_val; pow2; lra).
      assert (Dv : 0 < D <= / 4503599627370496) by (unfold D; pow2; lra). set (T := bpow radix2 (-1075)).
      assert (G : Rabs (sumn n (fun i => cabs2 (G0 i)) - q) <= (3 * eps + 3 * D) * q + INR n * (12 * T)).
      { unfold q. rewrite <- sumn_sub, <- sumn_scal. eapply Rle_trans; [apply sumn_abs|]. apply Rle_trans with (sumn n (fun i => (3 * eps + 3 * D) * w i + 12 * T)).
        - apply sumn_le. intros i Hi. destruct (Hw i Hi) as (Ew & Dw & B & _). destruct (HF i Hi) as (s & z & y & Es & [G1 G2] & E). rewrite Ew in Es. injection Es as <-. unfold G0. rewrite E.
          pose proof (cabs2_cis y) as Ec. unfold cabs2 in Ec. pose proof (entry_square eps (w i) _ _ _ _ He Dw B Ec G1 G2) as Q. cbv zeta in Q. rewrite D0 in Q. fold T in Q.
          rewrite !(Rmult_comm _ (dbl (sqrt (w i)))). eapply Rle_trans; [exact Q|]. apply Req_le. field.
        - rewrite sumn_add. apply Rplus_le_compat_l. apply Req_le. apply sumn_const. }
      apply Rabs_le_inv in S, G. assert (K : INR n <= 2345) by (rewrite INR_IZR_INZ; apply IZR_le; exact Hn2).
      pose proof (pos_INR n) as N0. assert (K2 : INR n * D <= / 4) by (rewrite <- (Rmult_1_r (/ 4)); assert (INR n * D <= 2345 * / 4503599627370496) by (apply Rmult_le_compat; lra); lra).
      assert (KT : INR n * (12 * T) <= / 100 * D).
      { apply Rle_trans with (2345 * (12 * T)); [apply Rmult_le_compat_r; [unfold T; pose proof (bpow_gt_0 radix2 (-1075)); lra|exact K]|].
        assert (T <= bpow radix2 (-30 + -52)) by (apply bpow_le; lia). rewrite bpow_plus in H. fold D in H. assert (V : bpow radix2 (-30) = / 1073741824) by (pow2; lra). rewrite V in H. lra. }
      assert (q <= 126 / 100) by lra. assert (0 <= INR n * D) by nra. assert ((3 * eps + 3 * D) * q <= (3 * eps + 3 * D) * (126 / 100)) by (apply Rmult_le_compat_l; lra). apply Rabs_le. split; lra.
  - intros Hc. apply Forall_map, Forall_forall. intros i Hi. apply in_seq in Hi. apply HF0; [apply P2; [exact Hc|lia]|lia].
Qed.

Section Phases.
Variables (nu : nat -> nat -> R) (eta : nat -> nat -> nat -> R) (g : list R) (a : nat -> nat -> nat -> Z).
Hypothesis Dg : Forall double g.
Hypothesis Hnu : forall i j, (i < n)%nat -> (j < n)%nat -> near ll t i j -> nu i j = alt2 g i j.
Definition entry_d (b i : nat) : option C := exp_times_d cexp (phase_d nu eta W n (nth b balls 0%nat) b i) (at2 None W i b).
Notation ball := (fun b => nth b balls 0%nat).

Lemma entry_nan b i : at2 None W i b = None -> entry_d b i = None.
Proof. intros E. unfold entry_d. rewrite E. unfold exp_times_d. cbn [sqrt_d]. destruct (phase_d _ _ _ _ _ _ _); reflexivity. Qed.
Lemma all_nan b i : (b < N)%nat -> (i < n)%nat -> at2 None W 0 b = None -> at2 None W i b = None.
Proof.
  intros Hb Hi E. destruct (partition_facts_d sums e r f n N HM Hn (small_n n Hn Hn2) Hs Hf) as (_ & _ & _ & P). destruct (P b Hb) as [P1 P2].
  destruct (covered_or e n N r b HM) as [H|H]; [|apply P2; assumption]. destruct (P1 H) as (w & _ & Hw). destruct (Hw 0%nat ltac:(lia)) as (E0 & _). congruence.
Qed.
Lemma phase_rows eps b : 0 <= eps <= / 32 -> nearly_cis eps cexp -> (b < N)%nat ->
  ((exists i, in_ball ld r i b) -> nearly_unit_c (4 * eps + (INR n + 5) * bpow radix2 (-52)) (nth b (mk2 N n entry_d) [])) /\
  ((forall i, ~ in_ball ld r i b) -> not_finite (nth b (mk2 N n entry_d) [])).
Proof.
  intros He Hc Hb. apply unit_rows; [exact He|exact Hb| |].
  - intros Hcv i Hi. destruct (partition_facts_d sums e r f n N HM Hn (small_n n Hn Hn2) Hs Hf) as (_ & _ & CC & _).
    destruct (entry_facts sums cexp e r t f n N HM Hn Hn2 Hs Hf Hov nu eta g a Dg Hnu ball b i CC Hb Hi Hcv) as (s & y & E1 & Dy & E2 & _).
    exists s, (cexp y), y. split; [exact E1|]. split; [apply Hc, Dy|exact E2].
  - intros E i Hi. apply entry_nan, all_nan; assumption.
Qed.
Lemma phase_near eps K B : 0 <= eps <= / 32 -> nearly_cis eps cexp ->
  (forall i j k, (i < n)%nat -> (j < n)%nat -> (k < n)%nat -> Rabs (IZR (a i j k)) <= K) -> (forall i j, (i < n)%nat -> (j < n)%nat -> Rabs (alt2 g i j) <= B) ->
  (forall i j k, (i < n)%nat -> (j < n)%nat -> (k < n)%nat -> near ll t i j -> near ll t j k -> near ll t i k ->
        Rabs (eta i j k - (IZR (a i j k) - (alt2 g i j + alt2 g j k - alt2 g i k))) <= bpow radix2 (-51) * (K + 3 * B) + bpow radix2 (-1074)) ->
  nearly_map (eps + phase_error n K B + (INR n + 4) * bpow radix2 (-52)) (mk2 N n entry_d) (phase_class_map e r f n N a (alt2 g) ball).
Proof.
  intros He Hcis HK HB Het. apply Forall2_mk2. intros b i Lb Li. destruct (partition_facts_d sums e r f n N HM Hn (small_n n Hn Hn2) Hs Hf) as (_ & _ & CC & P). destruct (P b Lb) as [P1 P2].
  assert (PE : 0 <= phase_error n K B).
  { unfold phase_error. pose proof (HK i i i Li Li Li). pose proof (HB i i Li Li). pose proof (Rabs_pos (IZR (a i i i))). pose proof (Rabs_pos (alt2 g i i)). pose proof (pos_INR n). pose proof (bpow_gt_0 radix2 (-47)). apply Rmult_le_pos; [apply Rmult_le_pos; lra|lra]. }
  destruct (covered_or e n N r b HM) as [Hc|H].
  - destruct (entry_facts sums cexp e r t f n N HM Hn Hn2 Hs Hf Hov nu eta g a Dg Hnu ball b i CC Lb Li Hc) as (s & y & E1 & Dy & E2 & E3).
    destruct (P1 Hc) as (w & _ & Hw). destruct (Hw i Li) as (Ew & Dw & Bw & Ow & y0 & Ey & D). rewrite Ew in E1. injection E1 as <-.
    destruct (exact_weights e r f n N HM Hf b Hc) as (yy & _ & Hyy). destruct (Hyy i Li) as (Ey' & By & Q). rewrite Ey in Ey'. injection Ey' as ->. fold (entry_d b i) in E2. rewrite Ey, E2.
    destruct (weight_root n (w i) (yy i) (small_n n Hn Hn2) Dw Bw By D) as [S1 S2]. pose proof (Hcis y Dy) as [G1 G2].
    assert (N0 : 0 <= (INR n + 4) * bpow radix2 (-52)) by (pose proof (pos_INR n); apply Rmult_le_pos; [lra|apply bpow_ge_0]).
    assert (Ib : in_ball ld r i b \/ ~ in_ball ld r i b) by (destruct (Rlt_dec 0 (yy i)) as [Y|Y]; [left; apply Q, Y|right; intros I; apply Y, Q, I]).
    destruct Ib as [I|I].
    + specialize (E3 I K B HK HB Het). set (L := 2 * PI * mean_phase e r f n a (alt2 g) (nth b balls 0%nat) b i) in *.
      assert (C1 : Rabs (fst (cis y)) <= 1) by (apply Rabs_le; pose proof (COS_bound y); cbn; lra). assert (C2 : Rabs (snd (cis y)) <= 1) by (apply Rabs_le; pose proof (SIN_bound y); cbn; lra).
      assert (K1 : forall z v v0 : R, Rabs (z - v) <= eps -> Rabs v <= 1 -> Rabs (v - v0) <= phase_error n K B -> Rabs (dbl (z * dbl (sqrt (w i))) - sqrt (yy i) * v0) <= eps + phase_error n K B + (INR n + 4) * bpow radix2 (-52)).
      { intros z v v0 Hz Hv Hv0. rewrite (Rmult_comm z). pose proof (entry_close ((INR n + 2) * bpow radix2 (-52)) eps (dbl (sqrt (w i))) (sqrt (yy i)) z v S1 S2 Hz Hv He) as X.
        assert (Y1 : 0 <= sqrt (yy i) <= 1) by (split; [apply sqrt_pos|rewrite <- sqrt_1; apply sqrt_le_1_alt; lra]).
        assert (X2 : Rabs (sqrt (yy i) * (v - v0)) <= phase_error n K B) by (rewrite Rabs_mult, (Rabs_right (sqrt (yy i))) by lra; pose proof (Rabs_pos (v - v0)); nra).
        replace (dbl (dbl (sqrt (w i)) * z) - sqrt (yy i) * v0) with ((dbl (dbl (sqrt (w i)) * z) - sqrt (yy i) * v) + sqrt (yy i) * (v - v0)) by ring. eapply Rle_trans; [apply Rabs_triang|]. lra. }
      split; unfold cscale; cbn [fst snd].
      * apply (K1 _ _ _ G1 C1). cbn [cis fst]. eapply Rle_trans; [apply cos_lipschitz|exact E3].
      * apply (K1 _ _ _ G2 C2). cbn [cis snd]. eapply Rle_trans; [apply sin_lipschitz|exact E3].
    + rewrite (Ow I). assert (Y0 : yy i = 0) by (destruct (Rlt_dec 0 (yy i)) as [Y|Y]; [exfalso; apply I, Q, Y|lra]). rewrite Y0, sqrt_0, (double_0 : dbl 0 = 0), !Rmult_0_r, (double_0 : dbl 0 = 0).
      split; unfold cscale; cbn [fst snd]; rewrite Rmult_0_l, Rminus_0_r, Rabs_R0; lra.
  - rewrite (exact_nan e r f n N HM Hf b i Li H). rewrite entry_nan by (apply P2; assumption). exact I.
Qed.
(** The integration. *)
Lemma sparse_integrate2_d_ok Nt Dm h vec0 : let T := combinatorial_number_system_table Nt Dm in
  one_cocycle_to_tensor vec0 ll t T = Ok nu -> two_cocycle_to_tensor h ll t T = Ok eta -> cexp 0 = c1 ->
  sparse_integrate2_d cexp h vec0 W balls ll t T = Ok (if numba_freezes N n then root_weights W n N else mk2 N n entry_d).
Proof.
  intros T E1 E2 Hc0. destruct (partition_facts_d sums e r f n N HM Hn (small_n n Hn Hn2) Hs Hf) as ([LV FV] & LB & CC & P).
  unfold sparse_integrate2_d. rewrite E1, E2. cbn [bind]. rewrite (proj1 HL).
  assert (Lh : length (hd [] W) = N). { destruct W as [|row l]; [cbn in LV; lia|]. inversion FV; assumption. }
  rewrite Lh, LV. unfold range. rewrite !Nat.sub_0_r.
  assert (G : (if numba_freezes N n then root_weights W n N else mk2 N n entry_d) =
    map (fun b => map (fun i => if numba_freezes N n then option_map (fun w => (dbl (sqrt w), 0)) (at2 None W i b) else entry_d b i) (seq 0 n)) (seq 0 N)).
  { destruct (numba_freezes N n); reflexivity. }
  rewrite G. apply map_res_ok. intros b Hb. apply in_seq in Hb. rewrite (get_ok _ balls b 0%nat) by lia. cbn [bind]. apply (f_equal (@Ok (list (option C)))).
  apply map_ext_in. intros i Hi. apply in_seq in Hi. destruct (numba_freezes N n); [|reflexivity].
  destruct (P b ltac:(lia)) as [P1 P2]. destruct (covered_or e n N r b HM) as [H|H].
  - destruct (P1 H) as (w & _ & Hw). destruct (Hw i ltac:(lia)) as (-> & Dw & Bw & _). unfold exp_times_d, sqrt_d. destruct (Rltb (w i) 0) eqn:Q; [apply Rltb_true in Q; lra|].
    rewrite Rmult_0_r, (double_0 : dbl 0 = 0), Hc0. cbn [c1 fst snd option_map]. rewrite Rmult_1_l, Rmult_0_l, (double_0 : dbl 0 = 0). rewrite (dbl_dbl (sqrt (w i)) : dbl (dbl (sqrt (w i))) = dbl (sqrt (w i))). reflexivity.
  - rewrite (P2 H i) by lia. reflexivity.
Qed.
End Phases.

(** Without phases. *)
Lemma weights_rows b : (b < N)%nat ->
  ((exists i, in_ball ld r i b) -> nearly_unit_c ((INR n + 5) * bpow radix2 (-52)) (nth b (root_weights W n N) [])) /\
  ((forall i, ~ in_ball ld r i b) -> not_finite (nth b (root_weights W n N) [])).
Proof.
  intros Hb. replace ((INR n + 5) * bpow radix2 (-52)) with (4 * 0 + (INR n + 5) * bpow radix2 (-52)) by ring.
  apply unit_rows; [lra|exact Hb| |].
  - intros Hc i Hi. destruct (partition_facts_d sums e r f n N HM Hn (small_n n Hn Hn2) Hs Hf) as (_ & _ & _ & P). destruct (P b Hb) as [P1 _]. destruct (P1 Hc) as (w & _ & Hw). destruct (Hw i Hi) as (-> & _).
    exists (w i), c1, 0. split; [reflexivity|]. split; [rewrite cis_0; split; rewrite Rminus_diag_eq by reflexivity; rewrite Rabs_R0; lra|]. cbn [c1 fst snd option_map]. rewrite Rmult_1_l, Rmult_0_l, (double_0 : dbl 0 = 0).
    rewrite (dbl_dbl (sqrt (w i)) : dbl (dbl (sqrt (w i))) = dbl (sqrt (w i))). reflexivity.
  - intros E i Hi. rewrite (all_nan b i Hb Hi E). reflexivity.
Qed.
Lemma weights_near : nearly_map ((INR n + 2) * bpow radix2 (-52)) (root_weights W n N) (weights_class_map e r f n N).
Proof.
  apply Forall2_mk2. intros b i Lb Li. destruct (partition_facts_d sums e r f n N HM Hn (small_n n Hn Hn2) Hs Hf) as (_ & _ & _ & P). destruct (P b Lb) as [P1 P2]. destruct (covered_or e n N r b HM) as [H|H].
  - destruct (P1 H) as (w & _ & Hw). destruct (Hw i Li) as (-> & Dw & Bw & _ & y & Ey & D). destruct (exact_weights e r f n N HM Hf b H) as (yy & _ & Hyy). destruct (Hyy i Li) as (Ey' & By & _). rewrite Ey in Ey'. injection Ey' as ->. rewrite Ey. cbn [option_map].
    destruct (weight_root n (w i) (yy i) (small_n n Hn Hn2) Dw Bw By D) as [S1 S2]. split; cbn [fst snd]; [exact S2|]. rewrite Rminus_0_r, Rabs_R0. eapply Rle_trans; [apply Rabs_pos|exact S2].
  - rewrite (exact_nan e r f n N HM Hf b i Li H), (P2 H i Li). exact I.
Qed.
End Map.

(** ** The integral is nearly harmonic *)
Lemma triangle_abs ll t F : Rabs (triangle_sum ll t F) <= triangle_sum ll t (fun i j k => Rabs (F i j k)).
Proof.
  unfold triangle_sum. eapply Rle_trans; [apply sumn_abs|]. apply sumn_le; intros k _. eapply Rle_trans; [apply sumn_abs|]. apply sumn_le; intros j _. eapply Rle_trans; [apply sumn_abs|]. apply sumn_le; intros i _.
  repeat (destruct (Rlt_dec _ _); [|rewrite Rabs_R0; lra]). lra.
Qed.
Lemma triangle_le ll t F G : (forall i j k, (i < j < k)%nat -> (k < length ll)%nat -> 0 <= G i j k /\ F i j k <= G i j k) ->
  triangle_sum ll t F <= sumn (length ll) (fun k => sumn k (fun j => sumn j (fun i => G i j k))).
Proof.
  intros H. unfold triangle_sum. apply sumn_le; intros k Hk. apply sumn_le; intros j Hj. apply sumn_le; intros i Hi. destruct (H i j k ltac:(lia) Hk) as [H1 H2].
  repeat (destruct (Rlt_dec _ _); [|exact H1]). exact H2.
Qed.
Lemma triangle_sub ll t F G : triangle_sum ll t F - triangle_sum ll t G = triangle_sum ll t (fun i j k => F i j k - G i j k).
Proof.
  unfold triangle_sum. rewrite <- sumn_sub. apply sumn_ext; intros k _. rewrite <- sumn_sub. apply sumn_ext; intros j _. rewrite <- sumn_sub. apply sumn_ext; intros i _.
  repeat (destruct (Rlt_dec _ _); [|ring]). ring.
Qed.
Lemma degree1 (a : nat -> R) m : (forall i, 0 <= a i) -> sumn m (fun j => sumn j (fun i => a j + a i)) <= INR m * sumn m a.
Proof.
  intros P. induction m as [|m IH]; [cbn; lra|]. cbn [sumn]. rewrite S_INR, sumn_add, sumn_const. pose proof (P m). lra.
Qed.
Lemma degree2 (y : nat -> nat -> R) m : (forall i j, 0 <= y i j) ->
  sumn m (fun k => sumn k (fun j => sumn j (fun i => y i j + (y j k + y i k)))) <= INR m * sumn m (fun j => sumn j (fun i => y i j)).
Proof.
  intros P. induction m as [|m IH]; [cbn; lra|]. cbn [sumn]. rewrite S_INR. 
  rewrite (sumn_ext m (fun j => sumn j (fun i => y i j + (y j m + y i m))) (fun j => sumn j (fun i => y i j) + sumn j (fun i => y j m + y i m))) by (intros j _; apply sumn_add).
  rewrite sumn_add. pose proof (degree1 (fun i => y i m) m (fun i => P i m)) as D. cbv beta in D.
  assert (0 <= sumn m (fun i => y i m)) by (apply sumn_nonneg; intros; apply P). lra.
Qed.

Section Nearly.
Variables (dm : list (list R)) (t : R) (N Dm : nat).
Hypothesis Hsq : square dm.
Notation n := (length dm).
Hypothesis HN : (n <= N)%nat.
Hypothesis HD : (2 <= Dm)%nat.
Hypothesis Hb : (Z.of_nat n <= 2345)%Z.
Notation T := (combinatorial_number_system_table N Dm).

Lemma cubes : 6 * INR (comb n 3) <= INR n ^ 3 /\ 2 * INR (comb n 2) <= INR n ^ 2.
Proof.
  rewrite !INR_IZR_INZ. split.
  - replace (6 * IZR (Z.of_nat (comb n 3))) with (IZR (6 * Z.of_nat (comb n 3))) by (rewrite mult_IZR; reflexivity). replace (IZR (Z.of_nat n) ^ 3) with (IZR (Z.of_nat n * Z.of_nat n * Z.of_nat n)) by (rewrite !mult_IZR; ring).
    apply IZR_le. rewrite comb_3. clear. destruct (Z.of_nat n) eqn:E; [lia| |lia]. assert (Z.pos p * Z.pos p >= 1)%Z by nia. nia.
  - replace (2 * IZR (Z.of_nat (comb n 2))) with (IZR (2 * Z.of_nat (comb n 2))) by (rewrite mult_IZR; reflexivity). replace (IZR (Z.of_nat n) ^ 2) with (IZR (Z.of_nat n * Z.of_nat n)) by (rewrite !mult_IZR; ring).
    apply IZR_le. rewrite comb_2. nia.
Qed.
Lemma size_delta1 junk M : make_delta1 Rltb junk dm t T = Ok M -> 0 <= size M <= INR n ^ 3.
Proof.
  intros EM. rewrite (delta1_ok Rltb junk dm t N Dm Hsq HN HD (tri_fit _ Hb)) in EM. injection EM as <-. unfold size. cbn [s_entries].
  assert (Lr : (length (rl Rltb dm t 2) <= comb n 3)%nat).
  { rewrite <- (map_length rank), <- (seq_length (comb n 3) 0). apply NoDup_incl_length; [apply rl_keys|].
    intros r Hr. apply in_map_iff in Hr as (s & <- & Hs). apply in_seq. apply rl_simplex in Hs. pose proof (rank_lt_d n 2 s Hs). lia. }
  assert (G : forall l, (forall s, In s l -> In s (rl Rltb dm t 2)) -> total (map (fun e : nat * nat * Z => Rabs (IZR (snd e))) (flat_map (fun s => ent1 (rank s) s) l)) = 3 * INR (length l)).
  { induction l as [|s l IH]; intros H; [cbn; ring|]. cbn [flat_map]. rewrite map_app, total_app, IH by (intros s' Hs'; apply H; right; exact Hs').
    pose proof (rl_simplex Rltb dm t 2 s (H s (or_introl eq_refl))) as Sx. destruct Sx as (L & _). destruct s as [|i [|j [|k [|]]]]; try discriminate L. cbn [ent1 map fst snd length]. rewrite S_INR. unfold total; cbn [fold_right snd].
    rewrite Rabs_R1, Rabs_left by lra. lra. }
  rewrite (G _ (fun s H => H)). pose proof (pos_INR (length (rl Rltb dm t 2))). apply le_INR in Lr. pose proof cubes as [C3 _]. pose proof (pos_INR (comb n 3)). split; lra.
Qed.
Lemma delta1_applied M (z : list R) junk : make_delta1 Rltb junk dm t T = Ok M -> length z = comb n 2 -> exists d, matvec (K := Rring) M z = Ok d /\ length d = comb n 3 /\
    forall i j k, (i < j < k)%nat -> (k < n)%nat -> nth (rank [i; j; k]) d 0 =
      if ripsb dm t i j k then nth (rank [i; j]) z 0 + nth (rank [j; k]) z 0 - nth (rank [i; k]) z 0 else 0.
Proof.
  intros EM Lz. rewrite (delta1_ok Rltb junk dm t N Dm Hsq HN HD (tri_fit _ Hb)) in EM. injection EM as EM.
  destruct (delta1_apply Rltb dm t N Dm HN Rring M z (eq_sym EM) HD Lz) as (d & Ed & Ld & Hd).
  exists d. split; [exact Ed|]. split; [exact Ld|]. intros i j k H Hk.
  assert (Sx : simplex n 2 [i; j; k]) by (apply simplex3; lia). destruct (tri_faces _ _ _ _ Sx) as (S1 & S2 & S3).
  assert (VA : forall a b, simplex n 1 [a; b] -> value_at T z [a; b] (nth (rank [a; b]) z 0)).
  { intros a b Sab. apply (value_at_rank dm N Dm HN z 1); [lia|exact Sab|]. pose proof (rank_lt_d _ _ _ Sab). apply nth_error_nth'. lia. }
  destruct (Hd i j k _ _ _ Sx (VA _ _ S1) (VA _ _ S2) (VA _ _ S3)) as [HR HR'].
  destruct (ripsb dm t i j k) eqn:Q.
  - apply (ripsb_rips dm t N Dm HN HD i j k H Hk) in Q. specialize (HR Q). apply (value_at_rank dm N Dm HN d 2) in HR; [|lia|exact Sx]. etransitivity; [exact (nth_error_nth _ _ 0 HR)|reflexivity].
  - assert (Q' : ~ rips Rltb dm t 2 [i; j; k]) by (intros Q'; apply (ripsb_rips dm t N Dm HN HD i j k H Hk) in Q'; congruence).
    specialize (HR' Q'). apply (value_at_rank dm N Dm HN d 2) in HR'; [|lia|exact Sx]. etransitivity; [exact (nth_error_nth _ _ 0 HR')|reflexivity].
Qed.

Lemma nearly_harmonic2_ok lsqr tol (vec : list Z) junk M K B : nearly_least_squares tol lsqr -> 0 <= tol -> make_delta1 Rltb junk dm t T = Ok M -> length vec = comb n 3 ->
  let cd := map (fun z => dbl (IZR z)) vec in let g := lsqr M cd in length g = comb n 2 -> 0 <= K ->
  (forall i j k, (i < n)%nat -> (j < n)%nat -> (k < n)%nat -> Rabs (IZR (alt3 vec i j k)) <= K) -> (forall i j, (i < n)%nat -> (j < n)%nat -> Rabs (alt2 g i j) <= B) ->
  nearly_harmonic2 dm t (alt3 vec) (alt2 g) (harmonic_error2 n tol K B).
Proof.
  intros Hls Htol EM Lv cd g Lg K0 HK HB y.
  assert (Lcd : length cd = comb n 3) by (unfold cd; rewrite map_length; exact Lv).
  pose proof EM as EM'. rewrite (delta1_ok Rltb junk dm t N Dm Hsq HN HD (tri_fit _ Hb)) in EM'. injection EM' as EM'.
  assert (RM : s_rows M = comb n 3) by (rewrite <- EM'; reflexivity). assert (CM : s_cols M = comb n 2) by (rewrite <- EM'; reflexivity).
  set (yl := edge_vector y n). assert (Lyl : length yl = comb n 2) by apply edge_vector_length.
  destruct (delta1_applied M g junk EM Lg) as (u & Eu & Lu & Hu). destruct (delta1_applied M yl junk EM Lyl) as (v & Ev & Lv' & Hv).
  change (carrier Rring) with R in *. pose proof (Hls M cd yl u v (eq_trans Lcd (eq_sym RM)) (eq_trans Lyl (eq_sym CM)) Eu Ev) as H. rewrite Lcd in H. fold g in H.
  set (Y := sumn n (fun j => sumn j (fun i => Rabs (y i j)))). assert (Y0 : 0 <= Y) by (apply sumn_nonneg; intros; apply sumn_nonneg; intros; apply Rabs_pos).
  assert (EY : total (map Rabs yl) = Y). { rewrite total_sumn, Lyl, sum_ranks. apply sumn_ext; intros j Hj; apply sumn_ext; intros i Hi. unfold yl. rewrite edge_vector_nth by lia. reflexivity. }
  pose proof cubes as [C3 C2]. pose proof (pos_INR n) as Pn. pose proof (pos_INR (comb n 3)) as P3. pose proof (pos_INR (comb n 2)) as P2.
  assert (HB2 : forall i j, (i < j < n)%nat -> Rabs (nth (rank [i; j]) g 0) <= B) by (intros i j Hij; rewrite <- alt2_sorted by lia; apply HB; lia).
  assert (Tg : total (map Rabs g) <= INR n ^ 2 * B).
  { destruct (Nat.eq_dec n 0) as [Z|Z].
    - assert (L0 : comb n 2 = 0%nat) by (rewrite Z; reflexivity). rewrite total_sumn, Lg, L0, Z. cbn. lra.
    - assert (0 <= B) by (eapply Rle_trans; [apply Rabs_pos|exact (HB 0%nat 0%nat ltac:(lia) ltac:(lia))]).
      rewrite total_sumn, Lg. apply Rle_trans with (INR (comb n 2) * B); [|apply Rmult_le_compat_r; lra]. rewrite <- sumn_const, !sum_ranks. apply sumn_le; intros j Hj; apply sumn_le; intros i Hi. apply HB2; lia. }
  pose proof (bpow_gt_0 radix2 (-52)) as U0. set (u52 := bpow radix2 (-52)) in *. assert (U1 : u52 <= 1) by (change 1 with (bpow radix2 0); apply bpow_le; lia).
  assert (Cz : forall i j k, (i < j < k)%nat -> (k < n)%nat -> Rabs (nth (rank [i; j; k]) cd 0 - IZR (alt3 vec i j k)) <= u52 * K /\ Rabs (nth (rank [i; j; k]) cd 0) <= 2 * K).
  { intros i j k Hij Hk. assert (Hr : (rank [i; j; k] < comb n 3)%nat) by (apply (rank_lt_d n 2), simplex3; lia). unfold cd. rewrite (nth_map_lt _ _ _ 0%Z) by lia. rewrite <- alt3_sorted by lia.
    pose proof (HK i j k ltac:(lia) ltac:(lia) Hk) as HK'. set (z := alt3 vec i j k) in *. pose proof (int_error z) as E. fold u52 in E.
    assert (A : Rabs (dbl (IZR z) - IZR z) <= u52 * K) by (eapply Rle_trans; [exact E|]; apply Rmult_le_compat_l; lra). split; [exact A|].
    replace (dbl (IZR z)) with ((dbl (IZR z) - IZR z) + IZR z) by ring. eapply Rle_trans; [apply Rabs_triang|]. nra. }
  assert (Tb : total (map Rabs cd) <= INR n ^ 3 * K).
  { rewrite total_sumn, Lcd. apply Rle_trans with (INR (comb n 3) * (2 * K)); [|nra]. rewrite <- sumn_const, !sum_ranks3. apply sumn_le; intros k Hk; apply sumn_le; intros j Hj; apply sumn_le; intros i Hi. apply Cz; lia. }
  assert (SP : 0 <= size M <= INR n ^ 3) by (apply (size_delta1 junk); exact EM).
  set (F := triangle_sum dm t (fun i j k => (nth (rank [i; j; k]) cd 0 - (alt2 g i j + alt2 g j k - alt2 g i k)) * (y i j + y j k - y i k))) in *.
  assert (Hin : inner (comb n 3) v (vsub cd u) = F).
  { unfold inner, F. rewrite sum_ranks3, (triangle_sum_ripsb dm t N Dm Hsq HN HD). apply sumn_ext; intros k Hk; apply sumn_ext; intros j Hj; apply sumn_ext; intros i Hi. rewrite nth_vsub by (exact (eq_trans Lcd (eq_sym Lu))).
    pose proof (Hu i j k ltac:(lia) Hk) as B2. pose proof (Hv i j k ltac:(lia) Hk) as B3. change (carrier Rring) with R in *. rewrite B2, B3. unfold yl. rewrite !edge_vector_nth by lia. rewrite <- !alt2_sorted by lia. destruct (ripsb dm t i j k); ring. }
  rewrite Hin, EY in H.
  assert (D : Rabs (triangle_sum dm t (fun i j k => (IZR (alt3 vec i j k) - (alt2 g i j + alt2 g j k - alt2 g i k)) * (y i j + y j k - y i k)) - F) <= u52 * K * (INR n * Y)).
  { unfold F. rewrite triangle_sub. eapply Rle_trans; [apply triangle_abs|].
    assert (UK : 0 <= u52 * K) by (apply Rmult_le_pos; lra).
    eapply Rle_trans; [apply (triangle_le _ _ _ (fun i j k => u52 * K * (Rabs (y i j) + (Rabs (y j k) + Rabs (y i k)))))|].
    - intros i j k Hij Hk. pose proof (Rabs_pos (y i j)). pose proof (Rabs_pos (y j k)). pose proof (Rabs_pos (y i k)). split; [apply Rmult_le_pos; lra|].
      replace ((IZR (alt3 vec i j k) - (alt2 g i j + alt2 g j k - alt2 g i k)) * (y i j + y j k - y i k) - (nth (rank [i; j; k]) cd 0 - (alt2 g i j + alt2 g j k - alt2 g i k)) * (y i j + y j k - y i k))
        with (- ((nth (rank [i; j; k]) cd 0 - IZR (alt3 vec i j k)) * (y i j + (y j k + - y i k)))) by ring.
      rewrite Rabs_Ropp, Rabs_mult. apply Rmult_le_compat; try apply Rabs_pos; [apply Cz; assumption|]. eapply Rle_trans; [apply Rabs_triang|]. pose proof (Rabs_triang (y j k) (- y i k)) as Q. rewrite Rabs_Ropp in Q. lra.
    - rewrite (sumn_ext n _ (fun k => u52 * K * sumn k (fun j => sumn j (fun i => Rabs (y i j) + (Rabs (y j k) + Rabs (y i k))))))
        by (intros k _; rewrite <- sumn_scal; apply sumn_ext; intros j _; rewrite <- sumn_scal; reflexivity).
      rewrite sumn_scal. apply Rmult_le_compat_l; [exact UK|]. apply (degree2 (fun i j => Rabs (y i j)) n (fun i j => Rabs_pos _)). }
  match goal with |- Rabs ?G <= _ => set (G0 := G) in * end.
  assert (Rabs G0 <= Rabs (G0 - F) + Rabs F) by (replace G0 with ((G0 - F) + F) at 1 by ring; apply Rabs_triang).
  assert (B0 : 0 <= total (map Rabs g)) by apply total_abs_nonneg. pose proof (total_abs_nonneg cd) as B1.
  assert (S2 : (1 + size M) ^ 2 <= (1 + INR n ^ 3) ^ 2) by (apply pow_incr; lra).
  assert (Q : tol * (1 + size M) ^ 2 * (total (map Rabs cd) + total (map Rabs g) + 1) * Y <= tol * (1 + INR n ^ 3) ^ 2 * (INR n ^ 3 * K + INR n ^ 2 * B + 1) * Y).
  { apply Rmult_le_compat_r; [exact Y0|]. apply Rmult_le_compat; [apply Rmult_le_pos; [exact Htol|apply pow2_ge_0]|lra|apply Rmult_le_compat_l; assumption|lra]. }
  fold Y. unfold harmonic_error2. fold u52.
  set (Z := tol * (1 + INR n ^ 3) ^ 2 * (INR n ^ 3 * K + INR n ^ 2 * B + 1)) in *.
  replace ((Z + u52 * INR n * K) * Y) with (Z * Y + u52 * K * (INR n * Y)) by ring. lra.
Qed.
End Nearly.
