(** PropClassMap.v -- C44 and C45: the class maps of ProjectiveCoords and LensCoords. *)
From Coq Require Import Permutation.
From Verif Require Import Base BaseProofs CohomologyModel SpecCohomology CohomologyProofs EMModel SpecEM EMProofs PropEM CircleProofs RealSum
  ToroidalModel SpecToroidal ToroidalProofs ToroidalFacts ToroidalCalls HarmonicProofs ToroidalTotal PropHarmonic DeltaFacts ComplexBase PPCAModel SpecPPCA PPCAProofs PropPPCA ClassMapModel SpecClassMap ClassMapProofs.
Import ListNotations.
Local Open Scope R_scope.

Lemma root_main eigh power ipower self n N perc k birth death c f sr proj_dim m root p :
  let e := p_em self in
  em_consistent e n N 1 -> em_metric e -> em_class e 1 k birth death c -> edge_cocycle_mod p c (em_dist_land_land e) n death ->
  cabs2 root = 1 -> cpowZ root p = c1 ->
  (forall row, In row (c_rows c) -> power (snd row) = Ok (cpowZ root (snd row))) -> (forall k, ipower k = cpowZ root (- k)) ->
  0 <= perc <= 1 -> start_of birth sr <= death ->
  let t := (1 - perc) * start_of birth sr + perc * death in let r := t / 2 in
  (forall d, 0 <= d < r -> 0 < f d r) ->
  exists eta ball, edge_values c n eta /\ covering_choice e r n N ball /\
    let M := root_class_map e r f n N root eta in
    root_get_coordinates eigh power ipower self perc k proj_dim f sr m = stored self (with_radius e r t) (ppca eigh (M ball) n proj_dim m) /\
    (forall b, (b < N)%nat -> ((exists i, in_ball (em_dist_land_data e) r i b) -> unit_point (nth b (M ball) [])) /\
                      ((forall i, ~ in_ball (em_dist_land_data e) r i b) -> nan_point (nth b (M ball) []))) /\
    forall ball', covering_choice e r n N ball' -> exists lams, length lams = N /\ Forall (fun l => exists q, l = cpowZ root q) lams /\
      M ball' = scale_rows lams (M ball) /\
      ppca eigh (M ball') n proj_dim m = scaled_answer lams (ppca eigh (M ball) n proj_dim m).
Proof.
  intros e Hc Hm Hk Hco Hr Ho Hp Hi Hperc Hst t r Hf.
  pose proof (class_simplex e n N 1 k birth death c Hc Hk) as S. pose proof (eta_values n c S) as V.
  destruct Hc as [Hn Hpos HL HD Hnn Hpr _].
  destruct (partition_facts e r f n N HD Hpos Hnn Hf) as ([LV _] & LB & CC & _).
  destruct (cocycle_matrix_ok n c root power ipower S Hr Hp Hi) as (M & EM & HM & HE).
  exists (eta_of c), (fun b => nth b (snd (get_covering_partition e r f)) 0%nat). split; [exact V|]. split; [exact CC|]. cbv zeta. split; [|split].
  - unfold root_get_coordinates. apply em_class1 in Hk. fold e. rewrite Hk. rewrite radius_ok by exact Hst. fold t. fold r. cbn [bind fst].
    unfold root_coordinates. change (get_covering_partition (with_radius e r t) r f) with (get_covering_partition e r f).
    pose proof (class_map_ok e r f n N root (eta_of c) M HD Hpos Hnn Hf HM HE) as EC.
    destruct (get_covering_partition e r f) as [varphi ball] eqn:EP. cbn [fst snd] in *. change (em_n_landmarks (with_radius e r t)) with (em_n_landmarks e). rewrite Hn, EM. cbn [bind]. rewrite EC. cbn [bind]. rewrite LV.
    unfold stored. destruct (ppca _ _ _ _ _) as [[var X]|err]; reflexivity.
  - apply root_rows; assumption.
  - intros ball' CC'. exists (map (fun b => cpowZ root (eta_of c (ball' b) (nth b (snd (get_covering_partition e r f)) 0%nat))) (seq 0 N)).
    assert (L : length (map (fun b => cpowZ root (eta_of c (ball' b) (nth b (snd (get_covering_partition e r f)) 0%nat))) (seq 0 N)) = N) by (rewrite map_length, seq_length; reflexivity).
    assert (Q : root_class_map e r f n N root (eta_of c) ball' =
      scale_rows (map (fun b => cpowZ root (eta_of c (ball' b) (nth b (snd (get_covering_partition e r f)) 0%nat))) (seq 0 N))
        (root_class_map e r f n N root (eta_of c) (fun b => nth b (snd (get_covering_partition e r f)) 0%nat))).
    { apply (root_change e r f n N root p); try assumption. intros b i j t' B1 B2 B3. assert (Hr2 : 2 * r <= death) by (unfold r, t; nra).
      apply (triangle_mod p c (em_dist_land_land e) n death (eta_of c) V Hco (proj1 Hm)); try (eapply in_ball_lt; eassumption); eapply balls_near; eassumption. }
    split; [exact L|]. split; [apply Forall_map, Forall_forall; intros b _; eexists; reflexivity|]. split; [exact Q|]. rewrite Q.
    rewrite C50_equivariant; [reflexivity| |].
    + rewrite L. unfold root_class_map. rewrite length_mk2; reflexivity.
    + apply Forall_map, Forall_forall; intros b _; apply cabs2_cpowZ; exact Hr.
Qed.

(** C45.  LensCoords: the coordinates are the PPCA of a class map whose rows at covered points
    are unit vectors; using any other covering landmark for each point multiplies the rows of the
    class map, and of the coordinates returned, by p-th roots of unity, and changes neither the
    variance nor a failure. *)
Theorem C45_lens : forall eigh self n N perc k birth death c f sr complex_dim m,
  let e := p_em self in let p := em_prime e in
  em_consistent e n N 1 -> em_metric e -> em_class e 1 k birth death c -> edge_cocycle_mod p c (em_dist_land_land e) n death ->
  0 <= perc <= 1 -> start_of birth sr <= death ->
  let t := (1 - perc) * start_of birth sr + perc * death in let r := t / 2 in
  (forall d, 0 <= d < r -> 0 < f d r) ->
  exists eta ball, edge_values c n eta /\ covering_choice e r n N ball /\
    let M := root_class_map e r f n N (cis (2 * PI / IZR p)) eta in
    lens_get_coordinates eigh self perc k complex_dim f sr m =
      stored self (with_radius e r t) (ppca eigh (M ball) n (complex_dim - 1) m) /\
    (forall b, (b < N)%nat -> ((exists i, in_ball (em_dist_land_data e) r i b) -> unit_point (nth b (M ball) [])) /\
                      ((forall i, ~ in_ball (em_dist_land_data e) r i b) -> nan_point (nth b (M ball) []))) /\
    forall ball', covering_choice e r n N ball' -> exists lams, length lams = N /\ Forall (fun l => cpowZ l p = c1) lams /\
      M ball' = scale_rows lams (M ball) /\
      ppca eigh (M ball') n (complex_dim - 1) m = scaled_answer lams (ppca eigh (M ball) n (complex_dim - 1) m).
Proof.
  intros eigh self n N perc k birth death c f sr complex_dim m e p Hc Hm Hk Hco Hperc Hst t r Hf.
  assert (Hp : (1 <= p)%Z) by (pose proof (ec_prime _ _ _ _ Hc); unfold p; lia). pose proof (lens_root_unit p) as Hu. pose proof (lens_root_order p Hp) as Ho.
  destruct (root_main eigh (fun k => Ok (cpowZ (lens_root p) k)) (fun k => cpowZ (cinv (lens_root p)) k) self n N perc k birth death c f sr (complex_dim - 1) m (lens_root p) p
    Hc Hm Hk Hco Hu Ho) as (eta & ball & V & CC & E & R & B); try assumption.
  - reflexivity.
  - intros q. rewrite cinv_unit by exact Hu. assert (Q : conj (lens_root p) = cpowZ (lens_root p) (-1)).
    { change (-1)%Z with (- Z.of_nat 1)%Z. rewrite cpowZ_neg by exact Hu. cbn [cpow]. ring. }
    rewrite Q, cpowZ_mul by exact Hu. f_equal; lia.
  - exists eta, ball. split; [exact V|]. split; [exact CC|]. cbv zeta. split; [exact E|]. split; [exact R|].
    intros ball' CC'. destruct (B ball' CC') as (lams & L & F & Q & A). exists lams. split; [exact L|]. split; [|split; [exact Q|exact A]].
    eapply Forall_impl; [|exact F]. intros l [q ->]. rewrite cpowZ_mul, Z.mul_comm, <- cpowZ_mul, Ho by exact Hu. apply cpowZ_1.
Qed.
Print Assumptions C45_lens.

(** C44.  ProjectiveCoords: the same with signs.  Values of the cocycle are not negative, as
    computed by ripser. *)
Theorem C44_projective : forall eigh self n N perc k birth death c f sr proj_dim m,
  let e := p_em self in
  em_consistent e n N 1 -> em_metric e -> em_class e 1 k birth death c -> edge_cocycle_mod 2 c (em_dist_land_land e) n death ->
  Forall (fun row => 0 <= snd row)%Z (c_rows c) ->
  0 <= perc <= 1 -> start_of birth sr <= death ->
  let t := (1 - perc) * start_of birth sr + perc * death in let r := t / 2 in
  (forall d, 0 <= d < r -> 0 < f d r) ->
  exists eta ball, edge_values c n eta /\ covering_choice e r n N ball /\
    let M := root_class_map e r f n N (-1, 0) eta in
    projective_get_coordinates eigh self perc k proj_dim f sr m =
      stored self (with_radius e r t) (ppca eigh (M ball) n proj_dim m) /\
    (forall b, (b < N)%nat -> ((exists i, in_ball (em_dist_land_data e) r i b) -> unit_point (nth b (M ball) [])) /\
                      ((forall i, ~ in_ball (em_dist_land_data e) r i b) -> nan_point (nth b (M ball) []))) /\
    (forall b x z, nth_error (M ball) b = Some x -> In (Some z) x -> snd z = 0) /\
    forall ball', covering_choice e r n N ball' -> exists lams, length lams = N /\ Forall (fun l => l = (1, 0) \/ l = (-1, 0)) lams /\
      M ball' = scale_rows lams (M ball) /\
      ppca eigh (M ball') n proj_dim m = scaled_answer lams (ppca eigh (M ball) n proj_dim m).
Proof.
  intros eigh self n N perc k birth death c f sr proj_dim m e Hc Hm Hk Hco Hv Hperc Hst t r Hf.
  pose proof minus_one_unit as Hu. pose proof minus_one_order as Ho.
  assert (Sg : forall q, cpowZ minus_one q = (1, 0) \/ cpowZ minus_one q = (-1, 0)).
  { intros q. destruct (Z.Even_or_Odd q) as [[h E]|[h E]].
    - left. rewrite (cpowZ_divide minus_one 2 q 0 Hu Ho); [reflexivity|]. exists h; lia.
    - right. rewrite (cpowZ_divide minus_one 2 q 1 Hu Ho); [|exists h; lia]. change (cpowZ minus_one 1) with (cmul minus_one c1). unfold minus_one; csolve. }
  destruct (root_main eigh sign_power sign_inverse_power self n N perc k birth death c f sr proj_dim m minus_one 2
    Hc Hm Hk Hco Hu Ho) as (eta & ball & V & CC & E & R & B); try assumption.
  - intros row I. rewrite Forall_forall in Hv. specialize (Hv row I). unfold sign_power. destruct (Z.ltb_spec (snd row) 0); [lia|reflexivity].
  - intros q. unfold sign_inverse_power. apply (cpowZ_divide minus_one 2); [exact Hu|exact Ho|exists q; lia].
  - exists eta, ball. split; [exact V|]. split; [exact CC|]. cbv zeta. split; [exact E|]. split; [exact R|]. split.
    + intros b x z Eb I. assert (Hb : (b < N)%nat). { rewrite <- (length_mk2 N n (fun b t => match unity_weight (em_dist_land_data e) r f t b with Some w => Some (cscale (sqrt w) (cpowZ (-1, 0) (eta (ball b) t))) | None => None end)). apply nth_error_Some. unfold root_class_map in Eb. rewrite Eb; discriminate. }
      unfold root_class_map in Eb. rewrite mk2_row in Eb by exact Hb. injection Eb as <-. apply in_map_iff in I. destruct I as (t' & Et & _).
      destruct (unity_weight _ _ _ t' b) as [w|]; [|discriminate]. injection Et as <-. destruct (Sg (eta (ball b) t')) as [Q|Q]; unfold minus_one in Q; rewrite Q; unfold cscale; cbn [fst snd]; ring.
    + intros ball' CC'. destruct (B ball' CC') as (lams & L & F & Q & A). exists lams. split; [exact L|]. split; [|split; [exact Q|exact A]].
      eapply Forall_impl; [|exact F]. intros l [q ->]. apply Sg.
Qed.
Print Assumptions C44_projective.

(** A class that is too short is refused and the object is as before. *)
Theorem C44_short_class : forall eigh self perc k birth death c f sr d m, em_class (p_em self) 1 k birth death c -> death < start_of birth sr ->
  projective_get_coordinates eigh self perc k d f sr m = (self, Raise ClassTooShort) /\
  lens_get_coordinates eigh self perc k d f sr m = (self, Raise ClassTooShort).
Proof.
  intros eigh [e v] perc k birth death c f sr d m Hk H. unfold projective_get_coordinates, lens_get_coordinates, root_get_coordinates. cbn [p_em p_variance] in *.
  apply em_class1 in Hk. rewrite Hk, radius_fail by exact H. split; reflexivity.
Qed.
Print Assumptions C44_short_class.

(** The constructors produce objects as assumed above, from a ripser answer of the expected
    form. *)
Theorem C44_constructor :
  forall argsort ripser X n_landmarks dm prime maxdim N d r dist q,
  (forall l, is_argsort Rle 0%R l (argsort l)) ->
  documented_input X dm N d -> (1 <= q)%nat -> (Z.of_nat q <= maxdim)%Z -> (2 <= prime)%Z ->
  ripser (given_to_ripser X dm) dm prime maxdim n_landmarks = Ok r ->
  ripser_contract N (Z.to_nat maxdim) r ->
  (* cocycles of dimension q: simplices, none twice *)
  (forall cs c, nth_error (r_cocycles r) q = Some cs -> In c cs -> c_dim c = q /\
     (forall row, In row (c_rows c) -> length (fst row) = S q /\ NoDup (fst row)) /\
     ForallOrdPairs (fun row row' => ~ Permutation (fst row) (fst row')) (c_rows c)) ->
  (* distances from landmarks to data points *)
  landmark_distances X dm N d r dist -> (forall i b y, entry dist i b y -> 0 <= y) ->
  exists e, em_init argsort ripser X n_landmarks dm prime maxdim = Ok e /\
    lens_init argsort ripser X n_landmarks dm prime maxdim = Ok (mkProj e None) /\
    (prime = 2%Z -> projective_init argsort ripser X n_landmarks dm maxdim = Ok (mkProj e None)) /\
    em_prime e = prime /\
    em_consistent e (length (r_idx_perm r)) (n_data dm N d) q /\
    ((forall i j vi vj y, nth_error (r_idx_perm r) i = Some vi -> nth_error (r_idx_perm r) j = Some vj ->
        entry dist i (Z.to_nat vj) y -> entry dist j (Z.to_nat vi) y) ->
     (forall i j vj b y d1 d2, nth_error (r_idx_perm r) j = Some vj ->
        entry dist i (Z.to_nat vj) y -> entry dist i b d1 -> entry dist j b d2 -> y <= d1 + d2) ->
     em_metric e).
Proof.
  intros argsort ripser X nl dm prime maxdim N d r dist q Ha Hin Hq Hm Hp Er Hc Hcoc Ed Hnn.
  rewrite (given_ok _ _ _ _ Hin) in Er. apply (landmark_distances_ok _ _ _ _ _ _ _ Hin Hc) in Ed.
  destruct (em_init_ok argsort ripser X nl dm prime maxdim N d r Ha Hin ltac:(lia) Er Hc) as
    (e & dist' & Ee & P1 & P2 & P3 & P4 & P5 & P6 & P7 & _ & _ & P8 & P9 & P10).
  rewrite Ed in P5; injection P5 as <-.
  destruct (dist_ok X dm N d (Z.to_nat maxdim) r Hin Hc) as (dist' & Q1 & Q2 & _). rewrite Ed in Q1; injection Q1 as <-.
  pose proof Hc as (R1 & R2 & R3 & R4 & R5 & R6 & R7 & R8).
  assert (Fi : Forall (fun v => (0 <= v < Z.of_nat (n_data dm N d))%Z) (r_idx_perm r)).
  { eapply Forall_impl; [|exact R3]. cbv beta; intros v Hv. unfold n_data; destruct dm; [|exact Hv]. destruct Hin as (_ & _ & Hd). specialize (Hd eq_refl). lia. }
  destruct (land_land_ok _ _ dist (r_idx_perm r) Q2 Fi) as (ll & El & Ml & Hl). rewrite P7 in El; injection El as El.
  exists e. split; [exact Ee|]. split; [unfold lens_init; rewrite Ee; reflexivity|]. split; [intros ->; unfold projective_init; rewrite Ee; reflexivity|]. split; [exact P1|].
  assert (D1 : exists dgm, nth_error (r_dgms r) q = Some dgm).
  { destruct (nth_error (r_dgms r) q) as [g|] eqn:Eg; [exists g; reflexivity|]. apply nth_error_None in Eg; lia. }
  destruct D1 as (dgm & Edgm).
  assert (D2 : exists cs, nth_error (r_cocycles r) q = Some cs).
  { destruct (nth_error (r_cocycles r) q) as [g|] eqn:Eg; [exists g; reflexivity|]. apply nth_error_None in Eg; lia. }
  destruct D2 as (cs & Ecs). pose proof (R7 q dgm cs ltac:(lia) Edgm Ecs) as Lcs.
  destruct (P10 q dgm cs Edgm Ecs) as (G1 & cs' & G2 & G3).
  assert (Lt : ((1 <=? q)%nat && (q <=? Z.to_nat maxdim)%nat)%bool = true).
  { apply andb_true_iff; split; apply Nat.leb_le; lia. }
  rewrite Lt in G1, G3. set (p := argsort (map key dgm)) in *.
  assert (Pp : Permutation p (seq 0 (length dgm))).
  { apply (sorted_of_perm argsort Ha dgm). }
  assert (Good : forall c, In c cs' -> exists c0, In c0 cs /\ renamed (r_idx_perm r) c0 c).
  { intros c Hin'. apply In_nth_error in Hin'; destruct Hin' as (i & Hi). destruct (f2_nth2 _ _ _ _ _ G3 Hi) as (c0 & Hc0 & Rn).
    exists c0; split; [|exact Rn]. rewrite nth_error_map in Hc0. destruct (nth_error p i) as [q'|] eqn:Eq; [|discriminate]. cbn in Hc0; injection Hc0 as <-.
    apply nth_In. apply nth_error_In in Eq. apply (Permutation_in _ Pp) in Eq. apply in_seq in Eq. lia. }
  assert (Back : forall vs vs', Forall2 (fun v v' => (0 <= v')%Z /\ nth_error (r_idx_perm r) (Z.to_nat v') = Some v) vs vs' ->
    map (fun v' => nth (Z.to_nat v') (r_idx_perm r) 0%Z) vs' = vs).
  { intros vs vs' Fv. induction Fv as [|v v' l l' [_ Hv] F IH]; [reflexivity|]. cbn [map]. rewrite IH, (nth_error_nth _ _ 0%Z Hv); reflexivity. }
  split.
  - constructor.
    + exact P3.
    + destruct (r_idx_perm r); [congruence|cbn; lia].
    + rewrite El; exact Ml.
    + rewrite P4; exact Q2.
    + rewrite P4; exact Hnn.
    + rewrite P1; exact Hp.
    + exists (map (fun k => nth k dgm (0, 0)) p), cs'. split; [exact G1|]. split; [exact G2|].
      split; [pose proof (f2_length G3) as Q; rewrite map_length in Q |- *; congruence|].
      apply Forall_forall; intros c Hin'. destruct (Good c Hin') as (c0 & Hc0 & (Rd & Rr)).
      destruct (Hcoc cs c0 Ecs Hc0) as (K1 & K2 & K3). split; [congruence|]. split.
      * apply Forall_forall; intros row' Hrow'. apply In_nth_error in Hrow'; destruct Hrow' as (i & Hi).
        destruct (f2_nth2 _ _ _ _ _ Rr Hi) as (row & Hrow & _ & Fv). destruct (K2 row (nth_error_In _ _ Hrow)) as (K4 & K5).
        split; [rewrite <- (f2_length Fv); exact K4|]. split.
        -- apply (NoDup_map_inv (fun v' => nth (Z.to_nat v') (r_idx_perm r) 0%Z)). rewrite (Back _ _ Fv); exact K5.
        -- apply Forall_forall; intros v' Hv'. apply In_nth_error in Hv'; destruct Hv' as (j & Hj).
           destruct (f2_nth2 _ _ _ _ _ Fv Hj) as (v & _ & V1 & V2). split; [exact V1|]. apply some_lt in V2. lia.
      * clear - K3 Rr Back. induction Rr as [|row row' l l' [_ Fv] F IH]; [constructor|]. inversion K3 as [|? ? Fh Ft]; subst. constructor; [|apply IH; exact Ft].
        clear IH Ft K3. induction F as [|row2 row2' l l' [_ Fv2] F IH]; [constructor|]. inversion Fh as [|? ? N1 Fh']; subst. constructor; [|apply IH; exact Fh'].
        intros P. apply N1. rewrite <- (Back _ _ Fv), <- (Back _ _ Fv2). apply Permutation_map, P.
  - intros Sy Tr. split; cbv zeta; rewrite El, ?P4.
    + intros i j y Hy. destruct (entry_bounds _ _ _ _ _ _ Ml Hy) as [Bi Bj].
      destruct (nth_error (r_idx_perm r) j) as [vj|] eqn:Ej; [|apply nth_error_None in Ej; lia].
      destruct (nth_error (r_idx_perm r) i) as [vi|] eqn:Ei; [|apply nth_error_None in Ei; lia].
      apply (Hl j i vi y Ei). split; [lia|]. apply (Hl i j vj y Ej) in Hy. apply (Sy i j vi vj y Ei Ej), Hy.
    + intros i j b y d1 d2 Hy H1 H2. destruct (entry_bounds _ _ _ _ _ _ Ml Hy) as [Bi Bj].
      destruct (nth_error (r_idx_perm r) j) as [vj|] eqn:Ej; [|apply nth_error_None in Ej; lia].
      apply (Hl i j vj y Ej) in Hy. apply (Tr i j vj b y d1 d2 Ej (proj2 Hy) H1 H2).
Qed.
Print Assumptions C44_constructor.

(** ProjectiveCoords refuses a class with a negative value. *)
Theorem C44_negative_value : forall eigh self n N perc k birth death c f sr proj_dim m,
  em_consistent (p_em self) n N 1 -> em_class (p_em self) 1 k birth death c ->
  Exists (fun row => snd row < 0)%Z (c_rows c) ->
  start_of birth sr <= death ->
  let t := (1 - perc) * start_of birth sr + perc * death in
  projective_get_coordinates eigh self perc k proj_dim f sr m =
    (mkProj (with_radius (p_em self) (t / 2) t) (p_variance self), Raise ValueError).
Proof.
  intros eigh self n N perc k birth death c f sr proj_dim m Hc Hk Hv Hst t.
  pose proof (class_simplex _ n N 1 k birth death c Hc Hk) as (_ & S & _).
  unfold projective_get_coordinates, root_get_coordinates. apply em_class1 in Hk. rewrite Hk, radius_ok by exact Hst. fold t. cbn [bind fst].
  unfold root_coordinates. destruct (get_covering_partition _ _ _) as [varphi ball]. unfold cocycle_matrix.
  assert (E : exists rows, map_res edge_row (c_rows c) = Ok rows /\ map snd rows = map snd (c_rows c)).
  { clear - S. induction S as [|row l (L & _) F IH]; [exists []; split; reflexivity|]. destruct IH as (rows & E & Em).
    destruct row as [vs v]. cbn [fst] in L. destruct vs as [|u [|w [|? ?]]]; try discriminate. exists ((u, w, v) :: rows).
    cbn [map_res map snd]. unfold edge_row at 1. cbn [fst snd]. cbn [bind]. rewrite E. cbn [bind]. rewrite Em. split; reflexivity. }
  destruct E as (rows & E & Em). rewrite E. cbn [bind].
  assert (F : map_res (fun r : Z * Z * Z => sign_power (snd r)) rows = Raise ValueError).
  { clear - Hv Em. revert rows Em. induction (c_rows c) as [|row l IH]; intros rows Em; [inversion Hv|]. destruct rows as [|r0 rows]; [discriminate|].
    cbn [map] in Em. injection Em as E1 E2. cbn [map_res]. rewrite E1. unfold sign_power at 1. destruct (Z.ltb_spec (snd row) 0) as [Hneg|Hneg]; [reflexivity|].
    cbn [bind]. rewrite (IH ltac:(inversion Hv; subst; [lia|assumption]) rows E2). reflexivity. }
  rewrite F. reflexivity.
Qed.
Print Assumptions C44_negative_value.

(** An instance: four landmarks on a circle and a fifth data point half way between two of them,
    in both balls; the class of the circle. *)
Definition ring_ll : list (list R) := [[0; 1; 2; 1]; [1; 0; 1; 2]; [2; 1; 0; 1]; [1; 2; 1; 0]].
Definition ring_ld : list (list R) := [[0; 1; 2; 1; 1/2]; [1; 0; 1; 2; 1/2]; [2; 1; 0; 1; 3/2]; [1; 2; 1; 0; 3/2]].
Definition ring_cocycle (v : Z) : cocycle := mkCocycle 1 [([0; 1]%Z, v)].
Definition ring (p v : Z) : proj :=
  mkProj (mkEM p [[]; [(1, 2)]] [0; 1; 2; 3]%Z 4 ring_ld (1/2) ring_ll [[]; [ring_cocycle v]] None None) None.

Ltac upto4 i H := destruct i as [|[|[|[|i]]]]; [..|exfalso; clear - H; lia].
Ltac upto5 i H := destruct i as [|[|[|[|[|i]]]]]; [..|exfalso; clear - H; lia].
Lemma entry_at n N (M : list (list R)) i j d : matrix n N M -> entry M i j d -> (i < n)%nat /\ (j < N)%nat /\ d = at2 0 M i j.
Proof.
  intros Hm H. destruct (entry_bounds _ _ _ _ _ _ Hm H) as [Hi Hj]. destruct H as (row & E1 & E2).
  split; [exact Hi|split; [exact Hj|]]. unfold at2. rewrite (nth_error_nth _ _ _ E1), (nth_error_nth _ _ _ E2); reflexivity.
Qed.
Lemma ring_ll_matrix : matrix 4 4 ring_ll.
Proof. split; [reflexivity|repeat constructor]. Qed.
Lemma ring_ld_matrix : matrix 4 5 ring_ld.
Proof. split; [reflexivity|repeat constructor]. Qed.
Lemma ring_consistent p v : (2 <= p)%Z -> em_consistent (p_em (ring p v)) 4 5 1.
Proof.
  intros Hp. constructor; cbn [ring p_em em_n_landmarks em_dist_land_land em_dist_land_data em_prime em_dgms em_cocycles];
    [reflexivity|lia|apply ring_ll_matrix|apply ring_ld_matrix| |exact Hp|].
  - intros i b x H. apply (entry_at _ _ _ _ _ _ ring_ld_matrix) in H as (Hi & Hb & ->). upto4 i Hi; upto5 b Hb; unfold at2; cbn [ring_ld nth]; lra.
  - exists [(1, 2)], [ring_cocycle v]. repeat split; try reflexivity. repeat constructor; cbn; try lia; intuition lia.
Qed.
Lemma ring_metric p v : em_metric (p_em (ring p v)).
Proof.
  split; cbn [ring p_em em_dist_land_land em_dist_land_data].
  - intros i j d H. apply (entry_at _ _ _ _ _ _ ring_ll_matrix) in H as (Hi & Hj & ->). upto4 i Hi; upto4 j Hj; unfold at2, entry; cbn [ring_ll nth]; eexists; split; reflexivity.
  - intros i j b d d1 d2 H H1 H2. apply (entry_at _ _ _ _ _ _ ring_ll_matrix) in H as (Hi & Hj & ->).
    apply (entry_at _ _ _ _ _ _ ring_ld_matrix) in H1 as (_ & Hb & ->). apply (entry_at _ _ _ _ _ _ ring_ld_matrix) in H2 as (_ & _ & ->).
    upto4 i Hi; upto4 j Hj; upto5 b Hb; unfold at2; cbn [ring_ll ring_ld nth]; lra.
Qed.
Lemma ring_class p v : em_class (p_em (ring p v)) 1 (PyInt 0) 1 2 (ring_cocycle v).
Proof. apply em_class1. reflexivity. Qed.
Lemma ring_no_triangle p v q : edge_cocycle_mod q (ring_cocycle v) (em_dist_land_land (p_em (ring p v))) 4 2.
Proof.
  intros eta i j k x y z _ H Hk Hx Hy Hz. cbn [ring p_em em_dist_land_land] in *.
  apply (entry_at _ _ _ _ _ _ ring_ll_matrix) in Hx as (Hi & Hj & ->). apply (entry_at _ _ _ _ _ _ ring_ll_matrix) in Hy as (_ & _ & ->).
  apply (entry_at _ _ _ _ _ _ ring_ll_matrix) in Hz as (_ & _ & ->).
  upto4 i Hi; upto4 j Hj; upto4 k Hk; try lia; unfold at2; cbn [ring_ll nth]; lra.
Qed.
(** Both choices of a landmark for the fifth point are covering choices. *)
Lemma ring_choice p v j : (j < 2)%nat -> covering_choice (p_em (ring p v)) (3/4) 4 5 (fun b => if (b <? 4)%nat then b else j).
Proof.
  intros Hj b Hb. cbn [ring p_em em_dist_land_data]. assert (G : in_ball ring_ld (3/4) (if (b <? 4)%nat then b else j) b).
  { assert (Y : forall d, entry ring_ld (if (b <? 4)%nat then b else j) b d -> d < 3/4 -> in_ball ring_ld (3/4) (if (b <? 4)%nat then b else j) b) by (intros d H1 H2; exists d; split; assumption).
    upto5 b Hb; cbn in *; [..|destruct j as [|[|j]]; [..|lia]]; eapply Y; try (eexists; split; reflexivity); lra. }
  split; [|intros _; exact G]. destruct (Nat.ltb_spec b 4); lia.
Qed.
Example ring_lens : let self := ring 3 1 in let e := p_em self in
  em_consistent e 4 5 1 /\ em_metric e /\ em_class e 1 (PyInt 0) 1 2 (ring_cocycle 1) /\
  edge_cocycle_mod (em_prime e) (ring_cocycle 1) (em_dist_land_land e) 4 2 /\ start_of 1 false <= 2 /\
  ((1 - 1/2) * start_of 1 false + 1/2 * 2) / 2 = 3/4 /\
  (forall d, 0 <= d < 3/4 -> 0 < pu_linear d (3/4)) /\
  covering_choice e (3/4) 4 5 (fun b => if (b <? 4)%nat then b else 0%nat) /\
  covering_choice e (3/4) 4 5 (fun b => if (b <? 4)%nat then b else 1%nat).
Proof.
  split; [apply ring_consistent; lia|]. split; [apply ring_metric|]. split; [apply ring_class|]. split; [apply ring_no_triangle|].
  split; [unfold start_of; lra|]. split; [unfold start_of; lra|]. split; [intros d H; unfold pu_linear; lra|]. split; apply ring_choice; lia.
Qed.
Example ring_projective : let self := ring 2 1 in let e := p_em self in
  em_consistent e 4 5 1 /\ em_metric e /\ em_class e 1 (PyInt 0) 1 2 (ring_cocycle 1) /\
  edge_cocycle_mod 2 (ring_cocycle 1) (em_dist_land_land e) 4 2 /\ Forall (fun row => 0 <= snd row)%Z (c_rows (ring_cocycle 1)).
Proof.
  split; [apply ring_consistent; lia|]. split; [apply ring_metric|]. split; [apply ring_class|]. split; [apply ring_no_triangle|]. repeat constructor; cbn; lia.
Qed.
Example ring_negative : em_consistent (p_em (ring 2 (-1))) 4 5 1 /\ em_class (p_em (ring 2 (-1))) 1 (PyInt 0) 1 2 (ring_cocycle (-1)) /\
  Exists (fun row => snd row < 0)%Z (c_rows (ring_cocycle (-1))).
Proof. split; [apply ring_consistent; lia|]. split; [apply ring_class|]. constructor; cbn; lia. Qed.
