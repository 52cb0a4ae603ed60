(** PropRoundLens.v -- C96: LensCoords in double precision, and the accuracy of the class maps. *)
From Coq Require Import Reals List ZArith Lia Lra Permutation.
From Flocq Require Import Core.
From Verif Require Import Base BaseProofs RealBase RealSum EMModel SpecEM EMProofs CohomologyModel ToroidalModel ToroidalProofs DeltaFacts ComplexBase PPCAModel SpecPPCA PPCAProofs ClassMapModel SpecClassMap ClassMapProofs PropClassMap
  CircleProofs SpecRound RoundBase RoundModel RoundTorusModel RoundProofs RoundTorusProofs PropRound RoundCover PropCover PropRoundTorus RoundPPCAModel SpecRoundPPCA RoundPPCAProofs RoundPPCAExact RoundClassMap RoundLens PropRoundPPCA.
Import ListNotations.
Local Open Scope R_scope.

(** LensCoords in double precision, with powers of the root of unity accurate up to [eps].  The
    coordinates are the PPCA of a class map made of the rounded square roots of rounded weights and
    of the computed powers.  Whatever covering landmark is used for each point, each real and
    imaginary part of the class map differs from the exact one (C45) by at most eps + (n + 4) 2^-52;
    rows at covered points are unit vectors up to 4 eps + (n + 5) 2^-52, the others are NaN; and the
    exact class maps for two choices differ by p-th roots of unity. *)
Theorem C96_lens : forall A eigh sums power inverse_power self n N perc k birth death c f (sr : bool) complex_dim m eps,
  let e := p_em self in let ld := em_dist_land_data e in let p := em_prime e in let root := cis (2 * PI / IZR p) in
  (forall l, added_up l (sums l)) -> (Z.of_nat n <= 2 ^ 50)%Z ->
  em_consistent e n N 1 -> (forall i j x, entry (em_dist_land_land e) i j x -> entry (em_dist_land_land e) j i x) ->
  em_class e 1 k birth death c -> edge_cocycle_mod p c (em_dist_land_land e) n death ->
  0 <= eps <= / 32 -> nearly_powers eps root power inverse_power c ->
  (if sr then dbl (2 * birth) else birth) <= death ->
  let (r, t) := get_cover_radius_d perc birth death sr in
  t <= death -> em_overlaps_joined e r t ->
  (forall i b d, entry ld i b d -> d < r -> double (f d r) /\ 0 < f d r) ->
  exists W g eta ball, nearly_weights e r f n N W /\ edge_values c n eta /\ covering_choice e r n N ball /\
    (forall i j, (i < n)%nat -> (j < n)%nat -> within eps (g i j) (cpowZ root (eta i j))) /\
    let M := rounded_roots W n N g in let exact := root_class_map e r f n N root eta in
    lens_get_coordinates_d A eigh sums power inverse_power self perc k complex_dim f sr m =
      stored_d self (with_radius e r t) (ppca_d A eigh (M ball) n (complex_dim - 1) m) /\
    forall ball', covering_choice e r n N ball' ->
      nearly_map (eps + (INR n + 4) * bpow radix2 (-52)) (M ball') (exact ball') /\
      (forall b, (b < N)%nat -> ((exists i, in_ball ld r i b) -> nearly_unit_c (4 * eps + (INR n + 5) * bpow radix2 (-52)) (nth b (M ball') [])) /\
                                ((forall i, ~ in_ball ld r i b) -> not_finite (nth b (M ball') []))) /\
      exists lams, length lams = N /\ Forall (fun l => cpowZ l p = c1) lams /\ exact ball' = scale_rows lams (exact ball).
Proof.
  intros A eigh sums power inverse_power self n N perc k birth death c f sr complex_dim m eps e ld p root Hs Hn2 Hc Hsym Hk Hco He HP Hst.
  destruct (get_cover_radius_d perc birth death sr) as [r t] eqn:Ert. intros Ht Hov Hf.
  assert (Hp : (1 <= p)%Z) by (pose proof (ec_prime _ _ _ _ Hc); unfold p; lia). pose proof (lens_root_unit p) as Hu. pose proof (lens_root_order p Hp) as Ho.
  pose proof (class_simplex e n N 1 k birth death c Hc Hk) as S. pose proof (eta_values n c S) as V. destruct Hc as [Hn Hpos HL HD Hnn Hpr _].
  destruct (partition_facts_d sums e r f n N HD Hpos Hn2 Hs Hf) as ([LV _] & LB & CC & _).
  destruct (cocycle_matrix_near n c root eps power inverse_power S (proj1 He) HP) as (M & EM & HM & HE).
  exists (fst (get_covering_partition_d sums ld r f)), (at2 c0 M), (eta_of c), (fun b => nth b (snd (get_covering_partition_d sums ld r f)) 0%nat).
  split; [apply nearly_weights_d; assumption|]. split; [exact V|]. split; [exact CC|]. split; [exact HE|]. cbv zeta. split.
  - unfold lens_get_coordinates_d. apply em_class1 in Hk. fold e. rewrite Hk. unfold cover_radius_d. rewrite Ert, (proj2 (Rltb_false _ _) Hst). cbn [bind fst snd]. fold (with_radius e r t).
    change (em_dist_land_data (with_radius e r t)) with ld. change (em_n_landmarks (with_radius e r t)) with (em_n_landmarks e).
    pose proof (root_class_map_ok sums e r f n N HD Hpos Hn2 Hs Hf M (at2 c0 M) HM (fun _ _ _ _ => eq_refl)) as EC. fold ld in EC, LV.
    destruct (get_covering_partition_d sums ld r f) as [varphi ball] eqn:EP. cbn [fst snd] in *. rewrite Hn, EM. cbn [bind]. rewrite EC. cbn [bind]. rewrite LV.
    unfold stored_d. destruct (ppca_d _ _ _ _ _ _) as [[var X]|err]; reflexivity.
  - intros ball' CC'. assert (B : forall b, (b < N)%nat -> (ball' b < n)%nat) by (intros b Hb; apply (CC' b Hb)). split; [|split].
    + apply rounded_near; assumption.
    + intros b Hb. apply (rounded_rows sums e r f n N HD Hpos Hn2 Hs Hf eps root (eta_of c)); assumption.
    + eexists. split; [|split]; [| |apply (exact_change e r f n N HD Hpos Hf root p (eta_of c) _ ball' Hu Ho); [|exact CC|exact CC']].
      * rewrite map_length, seq_length. reflexivity.
      * apply Forall_map, Forall_forall. intros b _. rewrite cpowZ_mul, Z.mul_comm, <- cpowZ_mul by exact Hu. fold root in Ho. change (lens_root p) with root in Ho. rewrite Ho. apply cpowZ_1.
      * intros b i j t' B1 B2 B3.
        assert (G : forall a b', in_ball ld r a b -> in_ball ld r b' b -> near (em_dist_land_land e) death a b') by (intros a b' Ha Hb'; destruct (Hov a b' b Ha Hb') as (d & D1 & D2); exists d; split; [exact D1|lra]).
        apply (triangle_mod p c (em_dist_land_land e) n death (eta_of c) V Hco Hsym); try (eapply in_ball_lt; eassumption); apply G; assumption.
Qed.
Print Assumptions C96_lens.

(** With the default bump function and the default percentage (or that of the circular
    coordinates), distances that are doubles from a metric, and a birth and a death that are doubles
    in a reasonable range, the hypotheses about rounding hold and the radius is exactly half of the
    threshold. *)
Theorem C96_default : forall A eigh sums power inverse_power self n N perc k birth death c (sr : bool) complex_dim m eps,
  let e := p_em self in let ld := em_dist_land_data e in let p := em_prime e in let root := cis (2 * PI / IZR p) in
  (forall l, added_up l (sums l)) -> (Z.of_nat n <= 2 ^ 50)%Z ->
  em_consistent e n N 1 -> em_metric e -> (forall i b d, entry ld i b d -> double d) ->
  em_class e 1 k birth death c -> edge_cocycle_mod p c (em_dist_land_land e) n death ->
  0 <= eps <= / 32 -> nearly_powers eps root power inverse_power c ->
  perc = 1 / 2 \/ perc = dbl (9 / 10) -> double birth -> double death -> 0 <= birth -> bpow radix2 (-1000) <= death ->
  (if sr then 2 * birth else birth) <= death ->
  exists t, 0 < t <= death /\
  exists W g eta ball, nearly_weights e (t / 2) pu_linear_d n N W /\ edge_values c n eta /\ covering_choice e (t / 2) n N ball /\
    (forall i j, (i < n)%nat -> (j < n)%nat -> within eps (g i j) (cpowZ root (eta i j))) /\
    let M := rounded_roots W n N g in let exact := root_class_map e (t / 2) pu_linear_d n N root eta in
    lens_get_coordinates_d A eigh sums power inverse_power self perc k complex_dim pu_linear_d sr m =
      stored_d self (with_radius e (t / 2) t) (ppca_d A eigh (M ball) n (complex_dim - 1) m) /\
    forall ball', covering_choice e (t / 2) n N ball' ->
      nearly_map (eps + (INR n + 4) * bpow radix2 (-52)) (M ball') (exact ball') /\
      (forall b, (b < N)%nat -> ((exists i, in_ball ld (t / 2) i b) -> nearly_unit_c (4 * eps + (INR n + 5) * bpow radix2 (-52)) (nth b (M ball') [])) /\
                                ((forall i, ~ in_ball ld (t / 2) i b) -> not_finite (nth b (M ball') []))) /\
      exists lams, length lams = N /\ Forall (fun l => cpowZ l p = c1) lams /\ exact ball' = scale_rows lams (exact ball).
Proof.
  intros A eigh sums power inverse_power self n N perc k birth death c sr complex_dim m eps e ld p root Hs Hn2 Hc Hm Dd Hk Hco He HP Hp Db Ddt Hb Hd St.
  destruct (default_radius e n N perc birth death sr Hc Hm Dd Hp Db Ddt Hb Hd St) as (t & Ert & Ht & Hov & Hf).
  pose proof (C96_lens A eigh sums power inverse_power self n N perc k birth death c pu_linear_d sr complex_dim m eps Hs Hn2 Hc (proj1 Hm) Hk Hco He HP) as P.
  rewrite (start_exact birth sr Db) in P. specialize (P St). rewrite Ert in P. exists t. split; [exact Ht|]. apply P; [apply Ht|exact Hov|exact Hf].
Qed.
Print Assumptions C96_default.

(** The class map of ProjectiveCoords (C95) is within (n + 2) 2^-52 of the exact one (C44). *)
Theorem C96_projective : forall e r f n N W eta ball,
  matrix n N (em_dist_land_data e) -> (Z.of_nat n <= 2 ^ 50)%Z ->
  (forall i b d, entry (em_dist_land_data e) i b d -> d < r -> double (f d r) /\ 0 < f d r) ->
  nearly_weights e r f n N W -> 
  nearly_map ((INR n + 2) * bpow radix2 (-52)) (as_complex (signed_roots W n N eta ball)) (root_class_map e r f n N (-1, 0) eta ball).
Proof.
  intros e r f n N W eta ball HM Hn2 Hf [_ HW]. unfold as_complex, signed_roots. 
  assert (E : forall (F : nat -> nat -> option R), map (map (option_map (fun x => (x, 0)))) (mk2 N n F) = mk2 N n (fun b t => option_map (fun x => (x, 0)) (F b t))).
  { intros F. unfold mk2. rewrite map_map. apply map_ext. intros b. rewrite map_map. reflexivity. }
  rewrite E. apply Forall2_mk2. intros b t Lb Lt. destruct (HW b t Lb Lt) as [W1 W2]. destruct (unity_range e r f n N HM Hf t b Lt) as [U1 U2].
  destruct (in_ball_dec e n N r b HM) as [[i Hi]|H].
  - destruct (W1 (ex_intro _ i Hi)) as (w & y & -> & Ey & Dw & Bw & Dy & _). destruct (U1 (ex_intro _ i Hi)) as (y' & Y' & By & _). rewrite Ey in Y'. injection Y' as <-. rewrite Ey.
    destruct (weight_root n w y Hn2 Dw Bw By Dy) as [S1 S2]. cbn [option_map]. change (cpowZ (-1, 0) (eta (ball b) t)) with (cpowZ minus_one (eta (ball b) t)). rewrite (sign_value n ltac:(lia)).
    assert (Z : Rabs 0 <= (INR n + 2) * bpow radix2 (-52)) by (rewrite Rabs_R0; eapply Rle_trans; [apply Rabs_pos|exact S2]).
    destruct (Z.even _); split; unfold cscale; cbn [fst snd]; [replace (dbl (sqrt w) - sqrt y * 1) with (dbl (sqrt w) - sqrt y) by ring; exact S2|replace (0 - sqrt y * 0) with 0 by ring; exact Z| |replace (0 - sqrt y * 0) with 0 by ring; exact Z].
    replace (- dbl (sqrt w) - sqrt y * -1) with (- (dbl (sqrt w) - sqrt y)) by ring. rewrite Rabs_Ropp. exact S2.
  - rewrite (W2 H), (U2 H). exact I.
Qed.
Print Assumptions C96_projective.

(** The coordinates returned by LensCoords and by ProjectiveCoords, when fewer than [n] of them are
    asked for or in direct mode, lie on the unit sphere up to (k + 4) 2^-51, k their number of
    coordinates, or are NaN, or come from a vector that is zero to working precision. *)
Lemma lens_answer A eigh sums power inverse_power self perc k complex_dim f sr m self' X n N : matrix n N (em_dist_land_data (p_em self)) -> (1 <= n)%nat ->
  lens_get_coordinates_d A eigh sums power inverse_power self perc k complex_dim f sr m = (self', Ok X) ->
  exists M variance, ppca_d A eigh M n (complex_dim - 1) m = Ok (variance, X) /\ p_variance self' = Some variance.
Proof.
  intros HM Hn E. unfold lens_get_coordinates_d in E. destruct (get_representative_cocycle (p_em self) k 1) as [[[death birth] c]|]; [|discriminate].
  unfold cover_radius_d in E. destruct (Rltb _ _); [discriminate|]. destruct (get_cover_radius_d perc death birth sr) as [r t]. cbn [bind fst snd em_dist_land_data] in E.
  destruct (partition_d_shape sums (em_dist_land_data (p_em self)) r f n N HM Hn) as [[LV _] _].
  destruct (get_covering_partition_d sums (em_dist_land_data (p_em self)) r f) as [varphi ball]. cbn [fst] in LV. rewrite LV in E.
  match type of E with context [cocycle_matrix ?a ?b ?q c] => destruct (cocycle_matrix a b q c) as [cm|]; [|discriminate] end. cbn [bind] in E.
  destruct (root_class_map_d varphi ball cm) as [M|]; [|discriminate]. cbn [bind] in E.
  destruct (ppca_d A eigh M n (complex_dim - 1) m) as [[var Y]|] eqn:EP; [|discriminate]. injection E as <- <-. exists M, var. split; [exact EP|reflexivity].
Qed.
Lemma projective_answer A eigh sums self perc k proj_dim f sr m self' X n N : matrix n N (em_dist_land_data (p_em self)) -> (1 <= n)%nat ->
  projective_get_coordinates_d A eigh sums self perc k proj_dim f sr m = (self', Ok X) ->
  exists M variance, ppca_d A eigh M n proj_dim m = Ok (variance, X) /\ p_variance self' = Some variance.
Proof.
  intros HM Hn E. unfold projective_get_coordinates_d in E. destruct (get_representative_cocycle (p_em self) k 1) as [[[death birth] c]|]; [|discriminate].
  unfold cover_radius_d in E. destruct (Rltb _ _); [discriminate|]. destruct (get_cover_radius_d perc death birth sr) as [r t]. cbn [bind fst snd em_dist_land_data] in E.
  destruct (partition_d_shape sums (em_dist_land_data (p_em self)) r f n N HM Hn) as [[LV _] _].
  destruct (get_covering_partition_d sums (em_dist_land_data (p_em self)) r f) as [varphi ball]. cbn [fst] in LV. rewrite LV in E.
  match type of E with context [sign_matrix ?q c] => destruct (sign_matrix q c) as [cm|]; [|discriminate] end. cbn [bind] in E.
  destruct (sign_class_map_d varphi ball cm) as [M|]; [|discriminate]. cbn [bind] in E.
  destruct (ppca_d A eigh M n proj_dim m) as [[var Y]|] eqn:EP; [|discriminate]. injection E as <- <-. exists M, var. split; [exact EP|reflexivity].
Qed.
Theorem C96_sphere : forall self n N self' sums perc k f sr m, matrix n N (em_dist_land_data (p_em self)) -> (1 <= n)%nat -> 
  (forall dot_ sum_ abs_ acos_ mean_ eigh power inverse_power complex_dim X, (forall p l, added_up l (sum_ p l)) ->
   lens_get_coordinates_d (complex_arith dbl dot_ sum_ abs_ acos_ mean_) eigh sums power inverse_power self perc k complex_dim f sr m = (self', Ok X) ->
   m = Direct \/ (complex_dim < Z.of_nat n)%Z ->
   forall x, In x X -> INR (length x) <= bpow radix2 41 ->
   nearly_unit_c ((INR (length x) + 4) * bpow radix2 (-51)) x \/ not_finite x \/ from_extreme x) /\
  (forall dot_ sum_ acos_ mean_ eigh proj_dim X, (forall p u v, double (dot_ p u v)) -> (forall p l, added_up l (sum_ p l)) ->
   projective_get_coordinates_d (real_arith dbl dot_ sum_ acos_ mean_) eigh sums self perc k proj_dim f sr m = (self', Ok X) ->
   m = Direct \/ (proj_dim + 1 < Z.of_nat n)%Z ->
   forall x, In x X -> INR (length x) <= bpow radix2 41 ->
   nearly_unit ((INR (length x) + 4) * bpow radix2 (-51)) x \/ not_finite x \/ from_tiny x).
Proof.
  intros self n N self' sums perc k f sr m HM Hn. split.
  - intros dot_ sum_ abs_ acos_ mean_ eigh power inverse_power complex_dim X Hs E Hm. destruct (lens_answer _ _ _ _ _ _ _ _ _ _ _ _ _ _ n N HM Hn E) as (M & var & EP & _).
    apply (C95_sphere_complex _ _ _ _ _ _ _ _ _ _ _ _ Hs EP). destruct Hm as [Hm|Hm]; [left; exact Hm|right; lia].
  - intros dot_ sum_ acos_ mean_ eigh proj_dim X Hd Hs E Hm. destruct (projective_answer _ _ _ _ _ _ _ _ _ _ _ _ n N HM Hn E) as (M & var & EP & _).
    apply (C95_sphere _ _ _ _ _ _ _ _ _ _ _ Hd Hs EP Hm).
Qed.
Print Assumptions C96_sphere.

(** A class is refused exactly if it is too short, and then the object is as before. *)
Theorem C96_short_class : forall A eigh sums power inverse_power self perc k birth death c f (sr : bool) complex_dim m,
  em_class (p_em self) 1 k birth death c -> double birth ->
  (death < (if sr then 2 * birth else birth) ->
     lens_get_coordinates_d A eigh sums power inverse_power self perc k complex_dim f sr m = (self, Raise ClassTooShort)) /\
  ((if sr then 2 * birth else birth) <= death ->
     let out := fst (lens_get_coordinates_d A eigh sums power inverse_power self perc k complex_dim f sr m) in
     em_r_cover (p_em out) = Some (fst (get_cover_radius_d perc birth death sr)) /\
     em_rips_threshold (p_em out) = Some (snd (get_cover_radius_d perc birth death sr))).
Proof.
  intros A eigh sums power inverse_power [e v] perc k birth death c f sr d m Hk Db. unfold lens_get_coordinates_d. cbn [p_em p_variance] in *.
  apply em_class1 in Hk. rewrite Hk. unfold cover_radius_d. rewrite (start_exact birth sr Db). split; intros H.
  - rewrite (proj2 (Rltb_true _ _) H). reflexivity.
  - rewrite (proj2 (Rltb_false _ _) H). cbv zeta. match goal with |- context [match ?q with Ok _ => _ | Raise _ => _ end] => destruct q as [[var X]|err] end; split; reflexivity.
Qed.
Print Assumptions C96_short_class.

(** ** Instances *)
(** Powers computed with correctly rounded cosines and sines. *)
Definition rounded_power (p q : Z) : C := (dbl (cos (IZR q * (2 * PI / IZR p))), dbl (sin (IZR q * (2 * PI / IZR p)))).
Lemma rounded_powers p c : nearly_powers (bpow radix2 (-52)) (cis (2 * PI / IZR p)) (rounded_power p) (fun k => rounded_power p (- k)) c.
Proof.
  assert (G : forall x, Rabs x <= 1 -> Rabs (dbl x - x) <= bpow radix2 (-52)).
  { intros x Hx. pose proof (dbl_error x). assert (V : bpow radix2 (-53) = / 2 * bpow radix2 (-52)) by (pow2; lra). assert (T : bpow radix2 (-1075) <= / 2 * bpow radix2 (-52)) by (rewrite <- V; apply bpow_le; lia).
    pose proof (bpow_gt_0 radix2 (-52)). rewrite V in H. pose proof (Rabs_pos x). nra. }
  assert (K : forall q, within (bpow radix2 (-52)) (rounded_power p q) (cpowZ (cis (2 * PI / IZR p)) q)).
  { intros q. rewrite cpowZ_cis. split; cbn [fst snd rounded_power cis]; apply G, Rabs_le; [pose proof (COS_bound (IZR q * (2 * PI / IZR p)))|pose proof (SIN_bound (IZR q * (2 * PI / IZR p)))]; lra. }
  intros row _. split; apply K.
Qed.
(** The circle of C45: the hypotheses of [C96_lens] and [C96_default] hold. *)
Example C96_lens_case : let self := ring 3 1 in let e := p_em self in
  (forall l, added_up l (running_sum l)) /\ em_consistent e 4 5 1 /\ em_metric e /\ (forall i b d, entry (em_dist_land_data e) i b d -> double d) /\
  em_class e 1 (PyInt 0) 1 2 (ring_cocycle 1) /\ edge_cocycle_mod (em_prime e) (ring_cocycle 1) (em_dist_land_land e) 4 2 /\
  nearly_powers (bpow radix2 (-52)) (cis (2 * PI / IZR (em_prime e))) (rounded_power 3) (fun k => rounded_power 3 (- k)) (ring_cocycle 1) /\
  get_cover_radius_d (1 / 2) 1 2 false = (3 / 4, 3 / 2) /\
  covering_choice e (3 / 4) 4 5 (fun b => if (b <? 4)%nat then b else 0%nat) /\
  covering_choice e (3 / 4) 4 5 (fun b => if (b <? 4)%nat then b else 1%nat).
Proof.
  destruct ring_lens as (H1 & H2 & H3 & H4 & _). destruct C95_projective_case as (_ & G1 & _ & _ & G2 & _). split; [exact G1|]. split; [exact H1|]. split; [exact H2|].
  split; [exact G2|]. split; [exact H3|]. split; [exact H4|]. split; [apply rounded_powers|]. split; [exact small_radius|]. split; apply ring_choice; lia.
Qed.
Example C96_sphere_case : exists self' X,
  lens_get_coordinates_d straight_complex (fun _ => Some (mk2 4 4 (fun i j => Some (if (i =? j)%nat then c1 else c0)))) running_sum (rounded_power 3) (fun k => rounded_power 3 (- k))
    (ring 3 1) (1 / 2) (PyInt 0) 2 pu_linear_d false Direct = (self', Ok X) /\ length X = 5%nat.
Proof.
  destruct C96_lens_case as (H1 & H2 & H3 & H4 & H5 & H6 & H7 & _).
  destruct (C96_default straight_complex (fun _ => Some (mk2 4 4 (fun i j => Some (if (i =? j)%nat then c1 else c0)))) running_sum (rounded_power 3) (fun k => rounded_power 3 (- k))
    (ring 3 1) 4 5 (1 / 2) (PyInt 0) 1 2 (ring_cocycle 1) false 2 Direct (bpow radix2 (-52)) H1 ltac:(lia) H2 H3 H4 H5 H6) as (t & _ & W & g & eta & ball & _ & _ & _ & _ & E & _).
  - split; [apply bpow_ge_0|pow2; lra].
  - exact H7.
  - left; reflexivity.
  - apply (double_IZR 1); cbn; lia.
  - apply (double_IZR 2); cbn; lia.
  - lra.
  - apply Rle_trans with (bpow radix2 0); [apply bpow_le; lia|cbn; lra].
  - lra.
  - rewrite E. eexists _, _. split; [reflexivity|]. unfold one_step_d, reduce_columns. cbn [snd]. rewrite map_length, combine_length, seq_length, Nat.min_id. unfold rounded_roots. apply length_mk2.
Qed.

Example C96_short_case A eigh sums power inverse_power perc f d m :
  let e := p_em (ring 3 1) in
  let self := mkProj (mkEM 3 [[]; [(3/2, 2)]] (em_idx_land e) (em_n_landmarks e) (em_dist_land_data e) (em_coverage e) (em_dist_land_land e) (em_cocycles e) None None) None in
  lens_get_coordinates_d A eigh sums power inverse_power self perc (PyInt 0) d f true m = (self, Raise ClassTooShort).
Proof.
  intros e self. apply (C96_short_class A eigh sums power inverse_power self perc (PyInt 0) (3/2) 2 (ring_cocycle 1)); [apply em_class1; reflexivity| |lra].
  replace (3 / 2) with (IZR 3 * bpow radix2 (-1)) by (pow2; lra). apply double_F; cbn; lia.
Qed.
