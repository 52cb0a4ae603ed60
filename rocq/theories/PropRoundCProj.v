(** PropRoundCProj.v -- C97: ComplexProjectiveCoords in double precision. *)
From Coq Require Import Reals List ZArith Lia Lra Psatz Permutation String.
From Flocq Require Import Core.
From Verif Require Import Base BaseProofs CombinatorialModel SpecSimplex CombinatorialProofs DeltaModel SpecRips RipsProofs DeltaProofs DeltaFacts PropDelta
  RealBase RealSum EMModel SpecEM EMProofs PropEM CohomologyModel SpecCohomology CohomologyProofs LLLModel LLLProofs ToroidalModel SpecToroidal ToroidalProofs RepairModel PropRepair ComplexBase PPCAModel SpecPPCA PPCAProofs
  ClassMapModel SpecClassMap ClassMapProofs PropClassMap ComplexProjModel SpecComplexProj ComplexProjProofs ComplexProjFacts PropComplexProj CircleProofs SpecRound RoundBase RoundModel RoundTorusModel RoundProofs RoundTorusProofs
  PropRound RoundCover PropCover RoundPPCAModel SpecRoundPPCA RoundPPCAProofs RoundClassMap RoundLens PropRoundTorus PropRoundPPCA RoundHarmonic RoundCProjModel SpecRoundCProj RoundCProj RoundCProjAngles RoundCProjMap.
Import ListNotations.
Local Open Scope list_scope.
Local Open Scope R_scope.

Lemma triangle_ext ll t F G : (forall i j k, (i < j < k)%nat -> (k < List.length ll)%nat -> F i j k = G i j k) -> triangle_sum ll t F = triangle_sum ll t G.
Proof. intros H. unfold triangle_sum. apply sumn_ext; intros k Hk; apply sumn_ext; intros j Hj; apply sumn_ext; intros i Hi. rewrite H by lia. reflexivity. Qed.

Lemma cproj_main : forall A ext eigh sums cexp globals self n N n' perc k birth death c l a f (sr check : bool) proj_dim m r t,
  let e := cp_em self in let ll := em_dist_land_land e in let ld := em_dist_land_data e in
  sound_numpy ext -> (forall S b, Forall double (x_lsqr ext S b)) -> (forall l, added_up l (sums l)) -> cexp 0 = (1, 0) ->
  em_consistent e n N 2 -> (forall i j x, entry ll i j x -> entry ll j i x) -> (Z.of_nat n <= 2345)%Z ->
  (n <= n')%nat -> cp_table self = combinatorial_number_system_table n' 3 ->
  em_class e 2 k birth death c -> integer_lift (em_prime e) c l -> triangle_values l n a ->
  (if sr then dbl (2 * birth) else birth) <= death ->
  get_cover_radius_d perc birth death sr = (r, t) ->
  (check = true -> tetrahedra_cocycle ll n t a) ->
  (forall i b d, entry ld i b d -> d < r -> double (f d r) /\ 0 < f d r) ->
  exists vec M g nu eta store,
    List.length vec = comb n 3 /\ (forall i j l, (i < n)%nat -> (j < n)%nat -> (l < n)%nat -> a i j l = alt3 vec i j l) /\
    make_delta1 Rltb (x_junk ext) ll t (combinatorial_number_system_table n' 3) = Ok M /\ g = x_lsqr ext M (map (fun z => dbl (IZR z)) vec) /\ List.length g = comb n 2 /\
    (forall i j, (i < n)%nat -> (j < n)%nat -> near ll t i j -> nu i j = alt2 g i j) /\
    (forall K B, (forall i j k, (i < n)%nat -> (j < n)%nat -> (k < n)%nat -> Rabs (IZR (alt3 vec i j k)) <= K) -> (forall i j, (i < n)%nat -> (j < n)%nat -> Rabs (alt2 g i j) <= B) ->
      forall i j k, (i < n)%nat -> (j < n)%nat -> (k < n)%nat -> near ll t i j -> near ll t j k -> near ll t i k ->
      Rabs (eta i j k - (IZR (alt3 vec i j k) - (alt2 g i j + alt2 g j k - alt2 g i k))) <= bpow radix2 (-51) * (K + 3 * B) + bpow radix2 (-1074)) /\
    class_lifted (em_prime e) 2 k (em_cocycles e) store /\
    complexprojective_get_coordinates_d sums cexp A ext eigh globals self perc k proj_dim f sr check m =
      cstored self (with_radius_lifted e r t store)
        (ppca_d A eigh (if numba_freezes N n then root_weights (fst (get_covering_partition_d sums ld r f)) n N else mk2 N n (entry_d sums cexp e r f n nu eta)) n proj_dim m).
Proof.
  intros A ext eigh sums cexp globals [e T v] n N n' perc k birth death c l a f sr check proj_dim m r t e0 ll ld [Ha Hlen] Hdbl Hs Hc0 Hc Hsym Hn Hn' HT Hk HL0 Hv Hst Ert Hcc Hf.
  cbn [cp_em cp_table] in e0, HT. subst e0 T. apply integer_lift_ok in HL0. subst l.
  pose proof (ec_landmarks _ _ _ _ Hc) as Hl. pose proof (ec_ll _ _ _ _ Hc) as ML. pose proof (ec_ld _ _ _ _ Hc) as MD. pose proof (ec_pos _ _ _ _ Hc) as Hpos.
  destruct (square_of _ _ ML) as [Hsq Ln]. fold ll in Hsq, Ln, ML. fold ld in MD.
  pose proof (class_simplex _ n N 2 k birth death c Hc Hk) as Sc. apply (lift_simplex n 2 (em_prime e)) in Sc.
  set (e1 := with_radius e r t). assert (Hc1 : em_consistent e1 n N 2) by (destruct Hc; constructor; assumption).
  destruct (make_delta1 Rltb (x_junk ext) ll t (combinatorial_number_system_table n' 3)) as [M|] eqn:EM.
  2:{ rewrite (delta1_ok Rltb (x_junk ext) ll t n' 3 Hsq) in EM; [discriminate|lia|lia|apply tri_fit; rewrite Ln; exact Hn]. }
  destruct (lift_class e1 n N 2 k birth death c Hc1 Hk) as (store & El & Hst').
  destruct (sparse_cocycle_to_vector (x_argsort ext) (lift_to_integer_cocycle (em_prime e) c) (combinatorial_number_system_table n' 3) n) as [vec|] eqn:EV.
  2:{ destruct Sc as (D1 & D2 & _). destruct (sparse_to_vector_ok (x_argsort ext) n 2 _ n' 3 Hn' ltac:(lia) D1 D2 Ha) as (v' & Q & _). congruence. }
  destruct (vector_values (x_argsort ext) n' 3 n _ vec Hn' ltac:(lia) Ha Sc EV) as (Lv & Va). specialize (Va a Hv).
  set (g := x_lsqr ext M (map (fun z => dbl (IZR z)) vec)).
  assert (CM : s_cols M = comb n 2).
  { pose proof EM as EM'. rewrite (delta1_ok Rltb (x_junk ext) ll t n' 3 Hsq) in EM'; [injection EM' as <-; cbn; rewrite Ln; reflexivity|lia|lia|apply tri_fit; rewrite Ln; exact Hn]. }
  assert (Lg : List.length g = comb n 2) by (unfold g; rewrite Hlen; exact CM). assert (Dg : Forall double g) by apply Hdbl.
  destruct (harmonic_tensor_d sums ll t n' 3 Hs Hsq ltac:(lia) ltac:(lia) vec g (x_junk ext) M ltac:(rewrite Ln; exact Hn) ltac:(rewrite Ln; exact Lv) ltac:(rewrite Ln; exact Lg) Dg Hsym EM)
    as (d & nu & eta & Ed & E1 & E2 & H1 & H2). rewrite Ln in H1, H2.
  destruct (partition_facts_d sums e r f n N MD Hpos (small_n n Hpos Hn) Hs Hf) as ([LV FV] & LB & CC & P).
  exists vec, M, g, nu, eta, store. split; [exact Lv|]. split; [exact Va|]. split; [reflexivity|]. split; [reflexivity|]. split; [exact Lg|]. split; [exact H1|]. split; [exact H2|]. split; [exact Hst'|].
  set (W := fst (get_covering_partition_d sums ld r f)).
  unfold complexprojective_get_coordinates_d. cbn [cp_em cp_table cp_variance]. apply em_class2 in Hk. rewrite Hk. unfold cover_radius_d. rewrite Ert, (proj2 (Rltb_false _ _) Hst). cbn [fst snd].
    fold (with_radius e r t). fold e1. change (em_dist_land_data e1) with ld. change (em_dist_land_land e1) with ll.
    rewrite (surjective_pairing (get_covering_partition_d sums ld r f)). rewrite EM. change (Z.of_nat 2) with 2%Z in El. rewrite El.
    unfold complex_coordinates_d. cbn [set_cocycles em_prime em_n_landmarks em_dist_land_land]. change (em_prime e1) with (em_prime e). change (em_n_landmarks e1) with (em_n_landmarks e).
    change (em_dist_land_land e1) with ll. rewrite Hl, EV. cbn [bind].
    assert (RP : (if check then repair_two Rltb globals (x_junk ext) (em_prime e) (x_milp ext) ll t (combinatorial_number_system_table n' 3) (idx_of k) vec else Ok vec) = Ok vec).
    { destruct check; [|reflexivity]. specialize (Hcc eq_refl).
      assert (TC : two_cocycle Rltb ll t (combinatorial_number_system_table n' 3) vec) by (apply (two_cocycle_iff ll t n' 3 vec a Hsq); rewrite ?Ln; try lia; try assumption).
      assert (IB : is_binomial (List.length ll) 3 (List.length vec)) by (rewrite Ln, Lv; apply comb_is_binomial).
      destruct (C16_is_two_cocycle Rltb ll t n' 3 vec Hsq ltac:(lia) ltac:(lia) IB) as (b & Eb & Hb).
      unfold repair_two. rewrite Eb. cbn [bind]. rewrite (proj2 Hb TC). reflexivity. }
    rewrite RP. cbn [bind]. fold g. rewrite Ed. cbn [bind].
    pose proof (sparse_integrate2_d_ok sums cexp e r t f n N ML MD Hpos Hn Hs Hf nu eta n' 3 _ g E1 E2 Hc0) as SI. fold ll ld in SI. fold W in SI. 
    fold W. rewrite SI. cbn [bind]. fold ld in LV. fold W in LV. rewrite LV.
    unfold cstored. cbn [cp_table cp_variance]. destruct (ppca_d A eigh _ n proj_dim m) as [[var X]|err]; reflexivity.
Qed.

(** ComplexProjectiveCoords in double precision, with an exponential function accurate up to [eps]:
    the object, the answer and the class map are as described in [complex_projective_answer]. *)
Theorem C97_complex_projective : forall A ext eigh sums cexp globals self n N n' perc k birth death c l a f (sr check : bool) proj_dim m eps,
  let e := cp_em self in let ll := em_dist_land_land e in let ld := em_dist_land_data e in
  sound_numpy ext -> (forall S b, Forall double (x_lsqr ext S b)) -> (forall l, added_up l (sums l)) ->
  0 <= eps <= / 32 -> nearly_cis eps cexp -> cexp 0 = (1, 0) ->
  em_consistent e n N 2 -> (forall i j x, entry ll i j x -> entry ll j i x) -> (Z.of_nat n <= 2345)%Z ->
  (n <= n')%nat -> cp_table self = combinatorial_number_system_table n' 3 ->
  em_class e 2 k birth death c -> integer_lift (em_prime e) c l -> triangle_values l n a ->
  (if sr then dbl (2 * birth) else birth) <= death ->
  let (r, t) := get_cover_radius_d perc birth death sr in
  em_overlaps_joined e r t -> (check = true -> tetrahedra_cocycle ll n t a) ->
  (forall i b d, entry ld i b d -> d < r -> double (f d r) /\ 0 < f d r) ->
  complex_projective_answer A eigh (x_lsqr ext) self k n N r t f a eps proj_dim m
    (complexprojective_get_coordinates_d sums cexp A ext eigh globals self perc k proj_dim f sr check m).
Proof.
  intros A ext eigh sums cexp globals self n N n' perc k birth death c l a f sr check proj_dim m eps e ll ld Hnp Hdbl Hs He Hcis Hc0 Hc Hsym Hn Hn' HT Hk HL0 Hv Hst.
  destruct (get_cover_radius_d perc birth death sr) as [r t] eqn:Ert. intros Hov Hcc Hf.
  destruct (cproj_main A ext eigh sums cexp globals self n N n' perc k birth death c l a f sr check proj_dim m r t Hnp Hdbl Hs Hc0 Hc Hsym Hn Hn' HT Hk HL0 Hv Hst Ert Hcc Hf)
    as (vec & M & g & nu & eta & store & Lv & Va & EM & Eg & Lg & H1 & H2 & Hst' & EQ). fold e ll ld in Va, EM, H1, H2, EQ, Hst'.
  pose proof (ec_ll _ _ _ _ Hc) as ML. pose proof (ec_ld _ _ _ _ Hc) as MD. pose proof (ec_pos _ _ _ _ Hc) as Hpos.
  destruct (square_of _ _ ML) as [Hsq Ln]. fold ll in Hsq, Ln, ML. fold ld in MD. assert (Dg : Forall double g) by (rewrite Eg; apply Hdbl).
  destruct (partition_facts_d sums e r f n N MD Hpos (small_n n Hpos Hn) Hs Hf) as ([LV FV] & LB & CC & P).
  set (ball := fun b => nth b (snd (get_covering_partition_d sums ld r f)) 0%nat). fold ball in CC. set (W := fst (get_covering_partition_d sums ld r f)).
  assert (Bl : forall b, (b < N)%nat -> (ball b < n)%nat) by (intros b Hb; apply (CC b Hb)).
  set (Mp := if numba_freezes N n then root_weights W n N else mk2 N n (entry_d sums cexp e r f n nu eta)).
  assert (HKv : forall K, (forall i j l, (i < n)%nat -> (j < n)%nat -> (l < n)%nat -> Rabs (IZR (a i j l)) <= K) ->
    forall i j l, (i < n)%nat -> (j < n)%nat -> (l < n)%nat -> Rabs (IZR (alt3 vec i j l)) <= K) by (intros K HK i j l' Hi Hj Hl'; rewrite <- Va by assumption; apply HK; assumption).
  exists (alt2 g), ball, store, W, Mp. split; [intros; apply alt2_swap|]. split.
  { intros tol K B Htol Hls HK HB. assert (K0 : 0 <= K) by (eapply Rle_trans; [apply Rabs_pos|exact (HK 0%nat 0%nat 0%nat Hpos Hpos Hpos)]).
    pose proof (nearly_harmonic2_ok ll t n' 3 Hsq ltac:(lia) ltac:(lia) ltac:(rewrite Ln; exact Hn) (x_lsqr ext) tol vec (x_junk ext) M K B Hls Htol EM ltac:(rewrite Ln; exact Lv)) as G.
    cbv zeta in G. rewrite <- Eg, Ln in G. specialize (G Lg K0 (HKv K HK) HB). intros y. specialize (G y).
    rewrite (triangle_ext _ _ _ (fun i j k0 => (IZR (alt3 vec i j k0) - (alt2 g i j + alt2 g j k0 - alt2 g i k0)) * (y i j + y j k0 - y i k0))); [exact G|].
    intros i j l' H Hl'. change (l' < List.length ll)%nat in Hl'. rewrite Ln in Hl'. rewrite Va by lia. reflexivity. }
  split; [exact CC|]. split; [exact Hst'|]. split; [apply nearly_weights_d; try assumption; apply small_n; assumption|].
  assert (Eph : forall bl, (forall b, (b < N)%nat -> (bl b < n)%nat) -> phase_class_map (cp_em self) r f n N a (alt2 g) bl = phase_class_map (cp_em self) r f n N (alt3 vec) (alt2 g) bl).
  { intros bl Hbl. apply phase_ext; [exact Va|exact Hbl]. }
  split.
  { exact EQ. }
  split.
  { intros Hsmall. assert (NF : numba_freezes N n = true) by (apply Z.leb_le; exact Hsmall). unfold Mp. rewrite NF. split; [reflexivity|]. apply weights_near; assumption. }
  split.
  { intros Hbig K B HK HB. assert (NF : numba_freezes N n = false) by (apply Z.leb_gt; exact Hbig). unfold Mp. rewrite NF. rewrite (Eph ball Bl).
    apply (phase_near sums cexp e r t f n N MD Hpos Hn Hs Hf Hov nu eta g (alt3 vec) Dg H1 eps K B He Hcis (HKv K HK) HB). apply H2; [apply HKv, HK|exact HB]. }
  split.
  { intros b Hb. unfold Mp. destruct (numba_freezes N n).
    - destruct (weights_rows sums e r f n N MD Hpos Hn Hs Hf b Hb) as [R1 R2]. split; [|exact R2]. intros Hcv. destruct (R1 Hcv) as (x & Ex & Bx). exists x. split; [exact Ex|lra].
    - apply (phase_rows sums cexp e r t f n N MD Hpos Hn Hs Hf Hov nu eta g (alt3 vec) Dg H1 eps b He Hcis Hb). }
  intros Hco ball' CC'. assert (Bl' : forall b, (b < N)%nat -> (ball' b < n)%nat) by (intros b Hb; apply (CC' b Hb)).
  rewrite (Eph ball Bl), (Eph ball' Bl'). eexists. split; [|split]; [| |apply (phase_change_d e r f n N MD Hf (alt3 vec) (alt2 g) ball ball')].
  - rewrite map_length, seq_length. reflexivity.
  - apply Forall_map, Forall_forall. intros b _. apply cabs2_cis.
  - intros; apply alt2_swap.
  - intros; apply alt3_swap1.
  - intros; apply alt3_swap2.
  - intros b i1 i2 i3 i4 B1 B2 B3 B4.
    assert (TC : two_cocycle Rltb ll t (combinatorial_number_system_table n' 3) vec) by (apply (two_cocycle_iff ll t n' 3 vec a Hsq); rewrite ?Ln; try lia; try assumption).
    apply (cocycle_any ll t n' 3 vec (fun i => in_ball ld r i b)); try assumption; rewrite ?Ln; try lia; try assumption.
    + intros i Bi. exact (in_ball_lt e n N r i b MD Bi).
    + intros i j Bi Bj. exact (Hov i j b Bi Bj).
  - exact CC.
  - exact CC'.
Qed.
Print Assumptions C97_complex_projective.

(** With the default bump function, the default percentage (or that of the circular coordinates),
    distances that are doubles from a metric, and a birth and a death that are doubles in a reasonable
    range, the hypotheses about rounding hold and the radius is exactly half of the threshold. *)
Theorem C97_default : forall A ext eigh sums cexp globals self n N n' perc k birth death c l a (sr check : bool) proj_dim m eps,
  let e := cp_em self in let ll := em_dist_land_land e in let ld := em_dist_land_data e in
  sound_numpy ext -> (forall S b, Forall double (x_lsqr ext S b)) -> (forall l, added_up l (sums l)) ->
  0 <= eps <= / 32 -> nearly_cis eps cexp -> cexp 0 = (1, 0) ->
  em_consistent e n N 2 -> em_metric e -> (forall i b d, entry ld i b d -> double d) -> (Z.of_nat n <= 2345)%Z ->
  (n <= n')%nat -> cp_table self = combinatorial_number_system_table n' 3 ->
  em_class e 2 k birth death c -> integer_lift (em_prime e) c l -> triangle_values l n a ->
  perc = 1 / 2 \/ perc = dbl (9 / 10) -> double birth -> double death -> 0 <= birth -> bpow radix2 (-1000) <= death ->
  (if sr then 2 * birth else birth) <= death -> (check = true -> tetrahedra_cocycle ll n death a) ->
  exists t, 0 < t <= death /\
    complex_projective_answer A eigh (x_lsqr ext) self k n N (t / 2) t pu_linear_d a eps proj_dim m
      (complexprojective_get_coordinates_d sums cexp A ext eigh globals self perc k proj_dim pu_linear_d sr check m).
Proof.
  intros A ext eigh sums cexp globals self n N n' perc k birth death c l a sr check proj_dim m eps e ll ld Hnp Hdbl Hs He Hcis Hc0 Hc Hm Dd Hn Hn' HT Hk HL Hv Hp Db Ddt Hb Hd St Hcc.
  destruct (default_radius e n N perc birth death sr Hc Hm Dd Hp Db Ddt Hb Hd St) as (t & Ert & Ht & Hov & Hf).
  pose proof (C97_complex_projective A ext eigh sums cexp globals self n N n' perc k birth death c l a pu_linear_d sr check proj_dim m eps Hnp Hdbl Hs He Hcis Hc0 Hc (proj1 Hm) Hn Hn' HT Hk HL Hv) as P.
  rewrite (start_exact birth sr Db) in P. specialize (P St). rewrite Ert in P. exists t. split; [exact Ht|]. apply P; [exact Hov| |exact Hf].
  intros Hch i j k0 l0 H1 H2 H3. apply (Hcc Hch i j k0 l0 H1 H2). intros u v x Iu Iv L E. specialize (H3 u v x Iu Iv L E). lra.
Qed.
Print Assumptions C97_default.

(** For arrays of at most 10^6 bytes the class is ignored: two objects that differ in the cocycle of
    the class only give the same answer, bit for bit. *)
Theorem C97_small_data_ignores_class : forall A ext ext' eigh sums cexp globals globals' self self' n N n1 n1' perc k k' birth death c c' l l' a a' f (sr check check' : bool) proj_dim m,
  let e := cp_em self in let ll := em_dist_land_land e in let ld := em_dist_land_data e in
  (forall S b, Forall double (x_lsqr ext S b)) -> (forall S b, Forall double (x_lsqr ext' S b)) -> (forall l, added_up l (sums l)) -> cexp 0 = (1, 0) ->
  (forall i j x, entry ll i j x -> entry ll j i x) -> (Z.of_nat n <= 2345)%Z ->
  sound_numpy ext -> em_consistent e n N 2 -> (n <= n1)%nat -> cp_table self = combinatorial_number_system_table n1 3 ->
  em_class e 2 k birth death c -> integer_lift (em_prime e) c l -> triangle_values l n a ->
  sound_numpy ext' -> em_consistent (cp_em self') n N 2 -> (n <= n1')%nat -> cp_table self' = combinatorial_number_system_table n1' 3 ->
  em_class (cp_em self') 2 k' birth death c' -> integer_lift (em_prime (cp_em self')) c' l' -> triangle_values l' n a' ->
  em_dist_land_land (cp_em self') = ll -> em_dist_land_data (cp_em self') = ld ->
  (if sr then dbl (2 * birth) else birth) <= death ->
  let (r, t) := get_cover_radius_d perc birth death sr in
  (check = true -> tetrahedra_cocycle ll n t a) -> (check' = true -> tetrahedra_cocycle ll n t a') ->
  (forall i b d, entry ld i b d -> d < r -> double (f d r) /\ 0 < f d r) ->
  (8 * (Z.of_nat N * Z.of_nat n) <= 1000000)%Z ->
  snd (complexprojective_get_coordinates_d sums cexp A ext' eigh globals' self' perc k' proj_dim f sr check' m) =
  snd (complexprojective_get_coordinates_d sums cexp A ext eigh globals self perc k proj_dim f sr check m).
Proof.
  intros A ext ext' eigh sums cexp globals globals' self self' n N n1 n1' perc k k' birth death c c' l l' a a' f sr check check' proj_dim m e ll ld
    Hdbl Hdbl' Hs Hc0 Hsym Hn Hnp Hc Hn1 HT Hk HL Hv Hnp' Hc' Hn1' HT' Hk' HL' Hv' Ell Eld Hst.
  destruct (get_cover_radius_d perc birth death sr) as [r t] eqn:Ert. intros Hcc Hcc' Hf Hsmall.
  destruct (cproj_main A ext eigh sums cexp globals self n N n1 perc k birth death c l a f sr check proj_dim m r t Hnp Hdbl Hs Hc0 Hc Hsym Hn Hn1 HT Hk HL Hv Hst Ert Hcc Hf)
    as (_ & _ & _ & nu & eta & store & _ & _ & _ & _ & _ & _ & _ & _ & ->).
  destruct (cproj_main A ext' eigh sums cexp globals' self' n N n1' perc k' birth death c' l' a' f sr check' proj_dim m r t Hnp' Hdbl' Hs Hc0 Hc' ltac:(rewrite Ell; exact Hsym) Hn Hn1' HT' Hk' HL' Hv' Hst Ert ltac:(rewrite Ell; exact Hcc') ltac:(rewrite Eld; exact Hf))
    as (_ & _ & _ & nu' & eta' & store' & _ & _ & _ & _ & _ & _ & _ & _ & ->).
  unfold numba_freezes. rewrite (proj2 (Z.leb_le _ _) Hsmall), Eld. unfold ld, e, cstored. destruct (ppca_d _ _ _ _ _ _) as [[var X]|err]; reflexivity.
Qed.
Print Assumptions C97_small_data_ignores_class.

(** A class that is too short is refused and the object is as before. *)
Theorem C97_short_class : forall A ext eigh sums cexp globals self perc k birth death c f (sr check : bool) d m,
  em_class (cp_em self) 2 k birth death c -> death < (if sr then dbl (2 * birth) else birth) ->
  complexprojective_get_coordinates_d sums cexp A ext eigh globals self perc k d f sr check m = (self, Raise ClassTooShort).
Proof.
  intros A ext eigh sums cexp globals [e T v] perc k birth death c f sr check d m Hk H. unfold complexprojective_get_coordinates_d. cbn [cp_em cp_table cp_variance] in *.
  apply em_class2 in Hk. rewrite Hk. unfold cover_radius_d. rewrite (proj2 (Rltb_true _ _) H). reflexivity.
Qed.
Print Assumptions C97_short_class.

(** The coordinates, when fewer than [n] of them are asked for or in direct mode, lie on the unit
    sphere up to (k + 4) 2^-51, k their number of coordinates, or are NaN, or come from a vector that
    is zero to working precision. *)
Theorem C97_sphere : forall self n N self' ext eigh globals sums cexp perc k f (sr check : bool) m dot_ sum_ abs_ acos_ mean_ proj_dim X,
  matrix n N (em_dist_land_data (cp_em self)) -> (1 <= n)%nat -> (forall p l, added_up l (sum_ p l)) ->
  complexprojective_get_coordinates_d sums cexp (complex_arith dbl dot_ sum_ abs_ acos_ mean_) ext eigh globals self perc k proj_dim f sr check m = (self', Ok X) ->
  m = Direct \/ (proj_dim + 1 < Z.of_nat n)%Z ->
  forall x, In x X -> INR (List.length x) <= bpow radix2 41 ->
  nearly_unit_c ((INR (List.length x) + 4) * bpow radix2 (-51)) x \/ not_finite x \/ from_extreme x.
Proof.
  intros self n N self' ext eigh globals sums cexp perc k f sr check m dot_ sum_ abs_ acos_ mean_ proj_dim X HM Hn Hs E Hm.
  assert (G : exists M var, ppca_d (complex_arith dbl dot_ sum_ abs_ acos_ mean_) eigh M n proj_dim m = Ok (var, X)).
  { unfold complexprojective_get_coordinates_d in E. destruct (get_representative_cocycle (cp_em self) k 2) as [[[death birth] c]|]; [|discriminate].
    unfold cover_radius_d in E. destruct (Rltb _ _); [discriminate|]. destruct (get_cover_radius_d perc death birth sr) as [r t]. cbn [fst snd em_dist_land_data em_dist_land_land] in E.
    destruct (partition_d_shape sums (em_dist_land_data (cp_em self)) r f n N HM Hn) as [[LV _] _].
    destruct (get_covering_partition_d sums (em_dist_land_data (cp_em self)) r f) as [varphi ball]. cbn [fst] in LV.
    destruct (make_delta1 _ _ _ _ _) as [M1|]; [|discriminate]. destruct (lift_stored _ _ _) as [e2|]; [|discriminate].
    destruct (complex_coordinates_d _ _ _ _ _ _ _ _ _ _ _ _ _ _ _ _ _) as [[var Y]|] eqn:EC; [|discriminate]. injection E as _ ->.
    unfold complex_coordinates_d in EC. rewrite LV in EC. 
    destruct (sparse_cocycle_to_vector _ _ _ _) as [vec|]; [|discriminate]. cbn [bind] in EC.
    match type of EC with bind ?q _ = _ => destruct q as [vec'|]; [|discriminate] end. cbn [bind] in EC.
    destruct (matvec_d _ _ _) as [d|]; [|discriminate]. cbn [bind] in EC. destruct (sparse_integrate2_d _ _ _ _ _ _ _ _) as [M|]; [|discriminate]. cbn [bind] in EC. exists M, var. exact EC. }
  destruct G as (M & var & EP). apply (C95_sphere_complex _ _ _ _ _ _ _ _ _ _ _ _ Hs EP Hm).
Qed.
Print Assumptions C97_sphere.

(** ** Instances *)
(** Correctly rounded cosines and sines. *)
Definition rounded_cexp (y : R) : C := (dbl (cos y), dbl (sin y)).
Lemma rounded_cexp_ok : nearly_cis (bpow radix2 (-52)) rounded_cexp /\ rounded_cexp 0 = (1, 0).
Proof.
  assert (G : forall x, Rabs x <= 1 -> Rabs (dbl x - x) <= bpow radix2 (-52)).
  { intros x Hx. pose proof (dbl_error x). assert (V : bpow radix2 (-53) = / 2 * bpow radix2 (-52)) by (pow2; lra). assert (T : bpow radix2 (-1075) <= / 2 * bpow radix2 (-52)) by (rewrite <- V; apply bpow_le; lia).
    pose proof (bpow_gt_0 radix2 (-52)). rewrite V in H. pose proof (Rabs_pos x). nra. }
  split.
  - intros y _. split; cbn [fst snd rounded_cexp cis]; apply G, Rabs_le; [pose proof (COS_bound y)|pose proof (SIN_bound y)]; lra.
  - unfold rounded_cexp. rewrite cos_0, sin_0. f_equal; [apply (double_IZR 1)|apply (double_IZR 0)]; cbn; lia.
Qed.

(** The octahedron of C46 with the point inside a face repeated [M] more times. *)
Definition octa_many (M : nat) (v : Z) : cproj :=
  let e := cp_em (octa v) in
  mkCProj (mkEM (em_prime e) (em_dgms e) (em_idx_land e) (em_n_landmarks e) (map (fun row => row ++ repeat (nth 6 row 0) M) octa_ld)
    (5/8) (em_dist_land_land e) (em_cocycles e) None None) (cp_table (octa v)) None.
Definition many_ld M : list (list R) := map (fun row => row ++ repeat (nth 6 row 0) M) octa_ld.
Lemma many_matrix M : matrix 6 (7 + M) (many_ld M).
Proof. split; [reflexivity|]. unfold many_ld, octa_ld. cbn [map app]. repeat constructor; cbn [List.length]; rewrite repeat_length; reflexivity. Qed.
Lemma many_entry M i b d : entry (many_ld M) i b d -> (b < 7 + M)%nat /\ entry octa_ld i (Nat.min b 6) d.
Proof.
  intros H. pose proof H as H'. apply (entry_at _ _ _ _ _ _ (many_matrix M)) in H' as (Hi & Hb & _). split; [exact Hb|].
  destruct H as (row & E1 & E2). unfold many_ld in E1. rewrite nth_error_map in E1. destruct (nth_error octa_ld i) as [row0|] eqn:E; [|discriminate]. injection E1 as <-.
  exists row0. split; [exact E|]. assert (L : List.length row0 = 7%nat) by (apply nth_error_In in E; unfold octa_ld in E; cbn [In] in E; intuition subst; reflexivity).
  destruct (Nat.le_gt_cases 7 b) as [G|G].
  - rewrite Nat.min_r by lia. rewrite nth_error_app2 in E2 by lia. rewrite nth_error_nth' with (d := 0) by lia. f_equal.
    apply nth_error_In, repeat_spec in E2. congruence.
  - rewrite Nat.min_l by lia. rewrite nth_error_app1 in E2 by lia. exact E2.
Qed.
Lemma many_consistent M v : em_consistent (cp_em (octa_many M v)) 6 (7 + M) 2.
Proof.
  pose proof (octa_consistent v) as C. destruct C as [C1 C2 C3 C4 C5 C6 C7]. constructor; try assumption.
  - apply many_matrix.
  - intros i b x H. apply many_entry in H as [_ H]. exact (C5 _ _ _ H).
Qed.
Lemma many_metric M v : em_metric (cp_em (octa_many M v)).
Proof.
  destruct (octa_metric v) as [H1 H2]. split; [exact H1|]. intros i j b d d1 d2 H Ha Hb. apply many_entry in Ha as [_ Ha]. apply many_entry in Hb as [_ Hb]. exact (H2 _ _ _ _ _ _ H Ha Hb).
Qed.
Lemma many_class M v : em_class (cp_em (octa_many M v)) 2 (PyInt 0) 1 2 (octa_cocycle v).
Proof. apply em_class2. reflexivity. Qed.
Lemma many_double M v i b d : entry (em_dist_land_data (cp_em (octa_many M v))) i b d -> double d.
Proof.
  intros H. apply many_entry in H as [_ H]. apply (entry_at _ _ _ _ _ _ octa_ld_matrix) in H as (Hi & Hb & ->).
  assert (D1 : double (5 / 8)) by (replace (5 / 8) with (IZR 5 * bpow radix2 (-3)) by (pow2; lra); apply double_F; cbn; lia).
  assert (D2 : double (11 / 8)) by (replace (11 / 8) with (IZR 11 * bpow radix2 (-3)) by (pow2; lra); apply double_F; cbn; lia).
  generalize dependent (Nat.min b 6). clear b. intros b Hb.
  upto6 i Hi; upto7 b Hb; unfold at2; cbn [octa_ld nth]; try assumption; apply double_small; cbn; lia.
Qed.
Lemma octa_no_tetrahedron2 a : tetrahedra_cocycle octa_ll 6 2 a.
Proof.
  intros i j k l H1 H2 Hd. exfalso.
  assert (F : forall u v, In u [i; j; k; l] -> In v [i; j; k; l] -> (u < v)%nat -> at2 0 octa_ll u v < 2).
  { intros u v Iu Iv L. apply (Hd u v _ Iu Iv L). assert (u < 6 /\ v < 6)%nat as [Hu Hv] by (cbn [In] in Iu, Iv; lia). clear - Hu Hv.
    upto6 u Hu; upto6 v Hv; unfold at2, entry; cbn [octa_ll nth]; eexists; split; reflexivity. }
  assert (P : (In 0%nat [i; j; k; l] /\ In 1%nat [i; j; k; l]) \/ (In 2%nat [i; j; k; l] /\ In 3%nat [i; j; k; l]) \/ (In 4%nat [i; j; k; l] /\ In 5%nat [i; j; k; l])).
  { cbn [In]. lia. }
  destruct P as [[A B]|[[A B]|[A B]]]; specialize (F _ _ A B ltac:(lia)); unfold at2 in F; cbn [octa_ll nth] in F; lra.
Qed.
Lemma octa_values : exists l a, integer_lift 3 (octa_cocycle 1) l /\ triangle_values l 6 a /\ a 0%nat 2%nat 4%nat = 1%Z.
Proof.
  destruct octa_complex as (_ & _ & _ & _ & _ & (l & a & H1 & H2 & H3 & _) & _). exists l, a. repeat split; try assumption; apply H1 || apply H2.
Qed.
(** The hypotheses of [C97_default] hold for it, whether the array is small or large, so the answer is as
    described; the solver of [rounded_ext] is accurate, and 20834 more points make the array large. *)
Example C97_default_case M eigh d m : exists a t, a 0%nat 2%nat 4%nat = 1%Z /\ 0 < t <= 2 /\
  nearly_least_squares (bpow radix2 (-52)) (x_lsqr rounded_ext) /\
  complex_projective_answer straight_complex eigh (x_lsqr rounded_ext) (octa_many M 1) (PyInt 0) 6 (7 + M) (t / 2) t pu_linear_d a (bpow radix2 (-52)) d m
    (complexprojective_get_coordinates_d running_sum rounded_cexp straight_complex rounded_ext eigh [] (octa_many M 1) (1 / 2) (PyInt 0) d pu_linear_d false true m) /\
  ((20834 <= Z.of_nat M)%Z -> (1000000 < 8 * (Z.of_nat (7 + M) * Z.of_nat 6))%Z) /\ (M = 0%nat -> (8 * (Z.of_nat (7 + M) * Z.of_nat 6) <= 1000000)%Z).
Proof.
  destruct octa_values as (l & a & Hl & Ha & E). destruct rounded_ext_ok as (HE & _ & _ & HD & _ & HL). destruct rounded_cexp_ok as [R1 R2].
  destruct (C97_default straight_complex rounded_ext eigh running_sum rounded_cexp [] (octa_many M 1) 6 (7 + M) 6 (1 / 2) (PyInt 0) 1 2 (octa_cocycle 1) l a false true d m (bpow radix2 (-52))
    HE HD running_sum_added) as (t & Ht & An); try assumption.
  - split; [apply bpow_ge_0|]. apply Rle_trans with (bpow radix2 (-5)); [apply bpow_le; lia|pow2; lra].
  - apply many_consistent.
  - apply many_metric.
  - apply many_double.
  - lia.
  - lia.
  - reflexivity.
  - apply many_class.
  - left; reflexivity.
  - apply (double_IZR 1); cbn; lia.
  - apply (double_IZR 2); cbn; lia.
  - lra.
  - apply Rle_trans with (bpow radix2 0); [apply bpow_le; lia|cbn; lra].
  - lra.
  - intros _. apply octa_no_tetrahedron2.
  - exists a, t. split; [exact E|]. split; [exact Ht|]. split; [exact HL|]. split; [exact An|]. split; lia.
Qed.
(** Two classes, one of them zero. *)
Example C97_ignored_case eigh d m :
  snd (complexprojective_get_coordinates_d running_sum rounded_cexp straight_complex rounded_ext eigh [] (octa_many 0 0) (1 / 2) (PyInt 0) d pu_linear_d false false m) =
  snd (complexprojective_get_coordinates_d running_sum rounded_cexp straight_complex rounded_ext eigh [] (octa_many 0 1) (1 / 2) (PyInt 0) d pu_linear_d false true m).
Proof.
  destruct rounded_ext_ok as (HE & _ & _ & HD & _ & HL). destruct rounded_cexp_ok as [R1 R2].
  assert (V : forall v, exists a, triangle_values (lift_to_integer_cocycle 3 (octa_cocycle v)) 6 a).
  { intros v. apply (C46_values 6). apply lift_simplex. apply (class_simplex _ 6 7 2 (PyInt 0) 1 2 _ (octa_consistent v) (octa_class v)). }
  destruct (V 0%Z) as (a0 & A0). destruct (V 1%Z) as (a1 & A1).
  pose proof (C97_small_data_ignores_class straight_complex rounded_ext rounded_ext eigh running_sum rounded_cexp [] [] (octa_many 0 1) (octa_many 0 0) 6 7 6 6 (1 / 2) (PyInt 0) (PyInt 0) 1 2
    (octa_cocycle 1) (octa_cocycle 0) _ _ a1 a0 pu_linear_d false true false d m HD HD running_sum_added R2 (proj1 (many_metric 0 1)) ltac:(lia) HE (many_consistent 0 1) ltac:(lia) eq_refl (many_class 0 1)
    ltac:(apply integer_lift_ok; reflexivity) A1 HE (many_consistent 0 0) ltac:(lia) eq_refl (many_class 0 0) ltac:(apply integer_lift_ok; reflexivity) A0 eq_refl eq_refl ltac:(lra)) as P.
  rewrite small_radius in P. apply P.
  - intros _. apply octa_no_tetrahedron.
  - discriminate.
  - intros i b x Hd Hlt. apply and_comm, linear_pos; [apply (many_double 0 1 i b x Hd)| |exact Hlt].
    replace (3 / 4) with (IZR 3 * bpow radix2 (-2)) by (pow2; lra). apply double_F; cbn; lia.
  - cbn; lia.
Qed.
(** With the standard range the class of the octahedron, whose death is 2, starts at 2; a class with birth
    3/2 would be too short. *)
Example C97_short_case A ext eigh sums cexp globals perc f check d m :
  let e := cp_em (octa 1) in
  let self := mkCProj (mkEM 3 [[]; []; [(3/2, 2)]] (em_idx_land e) 6 octa_ld (5/8) octa_ll (em_cocycles e) None None) (cp_table (octa 1)) None in
  complexprojective_get_coordinates_d sums cexp A ext eigh globals self perc (PyInt 0) d f true check m = (self, Raise ClassTooShort).
Proof.
  intros e self. apply (C97_short_class A ext eigh sums cexp globals self perc (PyInt 0) (3/2) 2 (octa_cocycle 1)); [apply em_class2; reflexivity|].
  replace (2 * (3 / 2)) with 3 by lra. rewrite (double_IZR 3) by (cbn; lia). lra.
Qed.
(** Coordinates in direct mode. *)
Example C97_sphere_case : exists self' X,
  complexprojective_get_coordinates_d running_sum rounded_cexp straight_complex rounded_ext (fun _ => Some (mk2 6 6 (fun i j => Some (if (i =? j)%nat then c1 else c0)))) []
    (octa_many 0 1) (1 / 2) (PyInt 0) 2 pu_linear_d false true Direct = (self', Ok X) /\ List.length X = 7%nat.
Proof.
  destruct (C97_default_case 0 (fun _ => Some (mk2 6 6 (fun i j => Some (if (i =? j)%nat then c1 else c0)))) 2 Direct) as (a & t & _ & _ & _ & (nu & ball & store & W & Mp & _ & _ & _ & _ & _ & E & S & _) & _ & Sm).
  destruct (S (Sm eq_refl)) as [-> _]. rewrite E. eexists _, _. split; [reflexivity|]. unfold one_step_d, reduce_columns. cbn [snd]. rewrite map_length, combine_length, seq_length, Nat.min_id. unfold root_weights. apply length_mk2.
Qed.
