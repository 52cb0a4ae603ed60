(** PropRoundPPCA.v -- C95: PPCA and the projective coordinates in double precision. *)
From Coq Require Import Reals List ZArith Lia Lra Permutation.
From Flocq Require Import Core.
From Verif Require Import Base BaseProofs RealBase RealSum EMModel SpecEM EMProofs CohomologyModel ToroidalModel ToroidalProofs DeltaFacts ComplexBase PPCAModel SpecPPCA ClassMapModel SpecClassMap ClassMapProofs PropClassMap
  CircleProofs SpecRound RoundBase RoundModel RoundTorusModel RoundProofs RoundTorusProofs PropRound RoundCover PropCover PropRoundTorus RoundPPCAModel SpecRoundPPCA RoundPPCAProofs RoundPPCAExact RoundClassMap.
Import ListNotations.
Local Open Scope R_scope.

(** The program with rounding is the one of C48-C51, C75 and C76 with rounded operations: without
    rounding it gives the same answers, for complex and for real arrays. *)
Theorem C95_unrounded : forall class_map n_dim proj_dim m,
  (forall eigh, eigh_shape eigh -> Forall (fun x => length x = n_dim) class_map ->
   ppca_d exact_complex eigh class_map n_dim proj_dim m = ppca eigh class_map n_dim proj_dim m) /\
  (forall eigh X, eigh_shape (eigh_of_real eigh) -> Forall (fun x => length x = n_dim) X ->
   answer_as_complex (ppca_d exact_real eigh X n_dim proj_dim m) = ppca (eigh_of_real eigh) (as_complex X) n_dim proj_dim m).
Proof.
  intros cm n p m. split; [intros eigh Hs F; exact (ppca_exact eigh Hs cm n p m F)|]. intros eigh X Hs F. rewrite <- real_exact. apply (ppca_exact _ Hs).
  apply Forall_map. eapply Forall_impl; [|exact F]. intros x L. rewrite map_length. exact L.
Qed.
Print Assumptions C95_unrounded.

(** Rounding does not break the projective structure: for every arithmetic whose rounding does not
    depend on signs, if each data point is represented by the opposite vector or not, the answer of
    ppca has exactly the corresponding signs, the same variance and the same failures.  No
    assumption on eigh, on the class map, on the dimensions or on the mode. *)
Theorem C95_signs : forall (K : Type) neg (A : arith K) eigh class_map n_dim proj_dim m s,
  sign_symmetric neg A -> length s = length class_map ->
  ppca_d A eigh (flip_rows neg s class_map) n_dim proj_dim m = flipped_answer neg s (ppca_d A eigh class_map n_dim proj_dim m).
Proof. intros K neg A eigh cm n p m s HA L. apply ppca_flip; assumption. Qed.
Print Assumptions C95_signs.

(** The points returned lie on the unit sphere up to (k + 4) 2^-51, k their number of coordinates,
    or are NaN, or come from a vector that is zero to working precision: whatever eigh answered, for
    every class map, with sums in any order, and with no requirement on the accuracy of the matrix
    products. *)
Theorem C95_sphere : forall dot_ sum_ acos_ mean_ eigh class_map n_dim proj_dim m variance X,
  (forall p u v, double (dot_ p u v)) -> (forall p l, added_up l (sum_ p l)) ->
  ppca_d (real_arith dbl dot_ sum_ acos_ mean_) eigh class_map n_dim proj_dim m = Ok (variance, X) ->
  m = Direct \/ (proj_dim + 1 < Z.of_nat n_dim)%Z ->
  forall x, In x X -> INR (length x) <= bpow radix2 41 ->
  nearly_unit ((INR (length x) + 4) * bpow radix2 (-51)) x \/ not_finite x \/ from_tiny x.
Proof.
  intros dot_ sum_ acos_ mean_ eigh cm n p m var X Hd Hs E Hm x Hx Hl. pose proof (ppca_made _ _ _ _ _ _ _ _ E Hm) as F. rewrite Forall_forall in F. destruct (F x Hx) as (N & b & y & -> & Hy).
  unfold normalize_d in *. destruct (finite y) as [v|] eqn:Ev; [|right; left; apply Forall_map, Forall_forall; reflexivity].
  cbn [a_norm real_arith] in *. set (q := sum_ [length v; N; b] (map (fun x => dbl (x * x)) v)) in *.
  destruct (Reqb (dbl (sqrt q)) 0) eqn:R0; [right; left; apply Forall_map, Forall_forall; reflexivity|]. rewrite map_length in *. cbn [a_div].
  destruct (Rlt_le_dec (total (map (fun a => a * a) v)) (bpow radix2 (-900))) as [L|L]; [right; right; exists v, (dbl (sqrt q)); split; [exact L|reflexivity]|].
  left. exists (map (fun z => dbl (z / dbl (sqrt q))) v). split; [rewrite map_map; reflexivity|].
  apply real_unit; [|exact Hl|apply Hs|exact L]. apply Forall_forall. intros w Hw. destruct (Hy w) as (p0 & u0 & v0 & ->); [|apply Hd].
  rewrite (finite_some _ _ Ev). apply in_map, Hw.
Qed.
Print Assumptions C95_sphere.
Theorem C95_sphere_complex : forall dot_ sum_ abs_ acos_ mean_ eigh class_map n_dim proj_dim m variance X,
  (forall p l, added_up l (sum_ p l)) ->
  ppca_d (complex_arith dbl dot_ sum_ abs_ acos_ mean_) eigh class_map n_dim proj_dim m = Ok (variance, X) ->
  m = Direct \/ (proj_dim + 1 < Z.of_nat n_dim)%Z ->
  forall x, In x X -> INR (length x) <= bpow radix2 41 ->
  nearly_unit_c ((INR (length x) + 4) * bpow radix2 (-51)) x \/ not_finite x \/ from_extreme x.
Proof.
  intros dot_ sum_ abs_ acos_ mean_ eigh cm n p m var X Hs E Hm x Hx Hl. pose proof (ppca_made _ _ _ _ _ _ _ _ E Hm) as F. rewrite Forall_forall in F. destruct (F x Hx) as (N & b & y & -> & Hy).
  unfold normalize_d in *. destruct (finite y) as [v|] eqn:Ev; [|right; left; apply Forall_map, Forall_forall; reflexivity].
  cbn [a_norm complex_arith] in *. set (q := sum_ [length v; N; b] (map (fun z => dbl (dbl (fst z * fst z) + dbl (snd z * snd z))) v)) in *.
  destruct (Reqb (dbl (sqrt q)) 0) eqn:R0; [right; left; apply Forall_map, Forall_forall; reflexivity|]. rewrite map_length in *. cbn [a_div].
  destruct (Rlt_le_dec (total (map cabs2 v)) (bpow radix2 (-900))) as [L|L]; [right; right; exists v, (dbl (sqrt q)); split; [left; exact L|reflexivity]|].
  destruct (Rlt_le_dec (bpow radix2 1000) (total (map cabs2 v))) as [L2|L2]; [right; right; exists v, (dbl (sqrt q)); split; [right; exact L2|reflexivity]|].
  left. exists (map (fun z => (dbl (fst z * dbl (1 / dbl (sqrt q))), dbl (snd z * dbl (1 / dbl (sqrt q))))) v). split; [rewrite map_map; reflexivity|].
  apply complex_unit; [exact Hl|apply Hs|exact L|exact L2].
Qed.
Print Assumptions C95_sphere_complex.

(** ProjectiveCoords in double precision.  The coordinates are the PPCA of a class map whose
    entries are square roots of the rounded weights, with the signs of the cocycle; its rows at
    covered points are unit vectors up to (n + 3) 2^-52 and NaN elsewhere.  Using another covering
    landmark for each point changes whole rows of the class map, and of the coordinates, by exact
    signs.  The last three hypotheses can fail through rounding; C95_default shows that with the
    defaults they hold. *)
Theorem C95_projective : forall A eigh sums self n N perc k birth death c f (sr : bool) proj_dim m,
  let e := p_em self in let ld := em_dist_land_data e in
  sign_symmetric Ropp A -> (forall l, added_up l (sums l)) -> (Z.of_nat n <= 2 ^ 50)%Z ->
  em_consistent e n N 1 -> (forall i j x, entry (em_dist_land_land e) i j x -> entry (em_dist_land_land e) j i x) ->
  em_class e 1 k birth death c -> edge_cocycle_mod 2 c (em_dist_land_land e) n death ->
  Forall (fun row => 0 <= snd row)%Z (c_rows c) ->
  (if sr then dbl (2 * birth) else birth) <= death ->
  let (r, t) := get_cover_radius_d perc birth death sr in
  t <= death -> em_overlaps_joined e r t ->
  (forall i b d, entry ld i b d -> d < r -> double (f d r) /\ 0 < f d r) ->
  exists W eta ball, nearly_weights e r f n N W /\ edge_values c n eta /\ covering_choice e r n N ball /\
    let M := signed_roots W n N eta in
    projective_get_coordinates_d A eigh sums self perc k proj_dim f sr m =
      stored_d self (with_radius e r t) (ppca_d A eigh (M ball) n proj_dim m) /\
    (forall b, (b < N)%nat -> ((exists i, in_ball ld r i b) -> nearly_unit ((INR n + 3) * bpow radix2 (-52)) (nth b (M ball) [])) /\
                              ((forall i, ~ in_ball ld r i b) -> not_finite (nth b (M ball) []))) /\
    forall ball', covering_choice e r n N ball' -> exists s, length s = N /\
      M ball' = flip_rows Ropp s (M ball) /\
      ppca_d A eigh (M ball') n proj_dim m = flipped_answer Ropp s (ppca_d A eigh (M ball) n proj_dim m).
Proof.
  intros A eigh sums self n N perc k birth death c f sr proj_dim m e ld HA Hs Hn2 Hc Hsym Hk Hco Hv Hst.
  destruct (get_cover_radius_d perc birth death sr) as [r t] eqn:Ert. intros Ht Hov Hf.
  pose proof (class_simplex e n N 1 k birth death c Hc Hk) as S. pose proof (eta_values n c S) as V. destruct Hc as [Hn Hpos HL HD Hnn Hpr _].
  destruct (partition_facts_d sums e r f n N HD Hpos Hn2 Hs Hf) as ([LV _] & LB & CC & _).
  destruct (sign_matrix_ok n Hpos c S Hv) as (M & EM & HM & HE).
  exists (fst (get_covering_partition_d sums ld r f)), (eta_of c), (fun b => nth b (snd (get_covering_partition_d sums ld r f)) 0%nat).
  split; [apply nearly_weights_d; assumption|]. split; [exact V|]. split; [exact CC|]. cbv zeta. split; [|split].
  - unfold projective_get_coordinates_d. apply em_class1 in Hk. fold e. rewrite Hk. unfold cover_radius_d. rewrite Ert, (proj2 (Rltb_false _ _) Hst). cbn [bind fst snd]. fold (with_radius e r t).
    change (em_dist_land_data (with_radius e r t)) with ld. change (em_n_landmarks (with_radius e r t)) with (em_n_landmarks e).
    pose proof (sign_class_map_ok sums e r f n N HD Hpos Hn2 Hs Hf c M HM HE) as EC. fold ld in EC, LV.
    destruct (get_covering_partition_d sums ld r f) as [varphi ball] eqn:EP. cbn [fst snd] in *. rewrite Hn, EM. cbn [bind]. rewrite EC. cbn [bind]. rewrite LV.
    unfold stored_d. destruct (ppca_d _ _ _ _ _ _) as [[var X]|err]; reflexivity.
  - intros b Hb. apply signed_rows; assumption.
  - intros ball' CC'.
    assert (Q : signed_roots (fst (get_covering_partition_d sums ld r f)) n N (eta_of c) ball' =
      flip_rows Ropp (map (fun b => negb (Z.even (eta_of c (ball' b) (nth b (snd (get_covering_partition_d sums ld r f)) 0%nat)))) (seq 0 N))
        (signed_roots (fst (get_covering_partition_d sums ld r f)) n N (eta_of c) (fun b => nth b (snd (get_covering_partition_d sums ld r f)) 0%nat))).
    { apply (signed_change sums e r f n N HD Hpos Hn2 Hs Hf (eta_of c) _ ball'); [|exact CC|exact CC']. intros b i j t' B1 B2 B3.
      assert (G : forall a b', in_ball ld r a b -> in_ball ld r b' b -> near (em_dist_land_land e) death a b') by (intros a b' Ha Hb'; destruct (Hov a b' b Ha Hb') as (d & D1 & D2); exists d; split; [exact D1|lra]).
      apply (triangle_mod 2 c (em_dist_land_land e) n death (eta_of c) V Hco Hsym); try (eapply in_ball_lt; eassumption); apply G; assumption. }
    eexists. split; [|split; [exact Q|]]; [rewrite map_length, seq_length; reflexivity|]. rewrite Q. apply ppca_flip; [exact HA|].
    rewrite map_length, seq_length. unfold signed_roots. rewrite length_mk2. reflexivity.
Qed.
Print Assumptions C95_projective.

Lemma default_radius_m e n N perc birth death (sr : bool) : matrix n n (em_dist_land_land e) -> matrix n N (em_dist_land_data e) -> em_metric e -> (forall i b d, entry (em_dist_land_data e) i b d -> double d) ->
  perc = 1 / 2 \/ perc = dbl (9 / 10) -> double birth -> double death -> 0 <= birth -> bpow radix2 (-1000) <= death -> (if sr then 2 * birth else birth) <= death ->
  exists t, get_cover_radius_d perc birth death sr = (t / 2, t) /\ 0 < t <= death /\ em_overlaps_joined e (t / 2) t /\
    (forall i b d, entry (em_dist_land_data e) i b d -> d < t / 2 -> double (pu_linear_d d (t / 2)) /\ 0 < pu_linear_d d (t / 2)).
Proof.
  intros HL HD Hm Dd Hp Db Ddt Hb Hd St.
  pose proof (C91_default perc birth death sr Hp Db Ddt Hb Hd St) as [Td _]. destruct (get_cover_radius_d perc birth death sr) as [r t] eqn:Ert. cbn [snd] in Td. symmetry in Ert.
  assert (Hd' : bpow radix2 (-1020) <= death) by (eapply Rle_trans; [apply (bpow_le radix2 _ (-1000)); lia|exact Hd]).
  assert (P5 : 1 / 2 <= perc <= 1) by (destruct Hp as [-> | ->]; [lra|rewrite nine_tenths; unfold P9; pow2; lra]).
  assert (Dh : double (death / 2)) by (apply double_half; [exact Ddt|eapply Rle_trans; [apply (bpow_le radix2 _ (-1020)); lia|exact Hd']]).
  assert (Tl : death / 2 <= t).
  { unfold get_cover_radius_d in Ert. injection Ert as _ ->. apply dbl_ge_double; [exact Dh|].
    assert (0 <= dbl (dbl (1 - perc) * (if sr then dbl (2 * birth) else birth))).
    { apply dbl_ge_0, Rmult_le_pos; [apply dbl_ge_0; lra|]. destruct sr; [apply dbl_ge_0; lra|exact Hb]. }
    assert (death / 2 <= dbl (perc * death)) by (apply dbl_ge_double; [exact Dh|pose proof (bpow_gt_0 radix2 (-1020)); nra]). lra. }
  assert (T21 : bpow radix2 (-1021) <= t).
  { replace (-1020)%Z with (1 + -1021)%Z in Hd' by lia. rewrite bpow_plus in Hd'. change (bpow radix2 1) with 2 in Hd'. lra. }
  assert (Dt : double t) by (unfold get_cover_radius_d in Ert; injection Ert as _ ->; apply dbl_dbl).
  assert (Er : r = t / 2).
  { unfold get_cover_radius_d in Ert. injection Ert as Er Et. rewrite <- Et in Er. rewrite Er. apply double_half; assumption. }
  assert (Dr : double r) by (unfold get_cover_radius_d in Ert; injection Ert as -> _; apply dbl_dbl).
  subst r. exists t. split; [reflexivity|]. split; [pose proof (bpow_gt_0 radix2 (-1021)); lra|]. split.
  - intros i j b (d1 & H1 & L1) (d2 & H2 & L2).
    destruct (entry_bounds _ _ _ _ _ _ HD H1) as [Bi _]. destruct (entry_bounds _ _ _ _ _ _ HD H2) as [Bj _].
    destruct (matrix_entry n n _ i j HL Bi Bj) as (d & Hd0). exists d. split; [exact Hd0|].
    pose proof (proj2 Hm i j b d d1 d2 Hd0 H1 H2). lra.
  - intros i b d He Hlt. destruct (linear_pos d (t / 2)) as [L1 L2]; [apply (Dd i b d He)|exact Dr|exact Hlt|split; assumption].
Qed.
Lemma default_radius {dim} e n N perc birth death (sr : bool) : em_consistent e n N dim -> em_metric e -> (forall i b d, entry (em_dist_land_data e) i b d -> double d) ->
  perc = 1 / 2 \/ perc = dbl (9 / 10) -> double birth -> double death -> 0 <= birth -> bpow radix2 (-1000) <= death -> (if sr then 2 * birth else birth) <= death ->
  exists t, get_cover_radius_d perc birth death sr = (t / 2, t) /\ 0 < t <= death /\ em_overlaps_joined e (t / 2) t /\
    (forall i b d, entry (em_dist_land_data e) i b d -> d < t / 2 -> double (pu_linear_d d (t / 2)) /\ 0 < pu_linear_d d (t / 2)).
Proof. intros Hc. apply (default_radius_m e n N); apply Hc. Qed.

(** With the default bump function and the default percentage (or that of the circular
    coordinates), distances that are doubles from a metric, and a birth and a death that are doubles
    in a reasonable range, the hypotheses about rounding hold and the radius is exactly half of the
    threshold. *)
Theorem C95_default : forall A eigh sums self n N perc k birth death c (sr : bool) proj_dim m,
  let e := p_em self in let ld := em_dist_land_data e in
  sign_symmetric Ropp A -> (forall l, added_up l (sums l)) -> (Z.of_nat n <= 2 ^ 50)%Z ->
  em_consistent e n N 1 -> em_metric e -> (forall i b d, entry ld i b d -> double d) ->
  em_class e 1 k birth death c -> edge_cocycle_mod 2 c (em_dist_land_land e) n death ->
  Forall (fun row => 0 <= snd row)%Z (c_rows c) ->
  perc = 1 / 2 \/ perc = dbl (9 / 10) -> double birth -> double death -> 0 <= birth -> bpow radix2 (-1000) <= death ->
  (if sr then 2 * birth else birth) <= death ->
  exists t, 0 < t <= death /\
  exists W eta ball, nearly_weights e (t / 2) pu_linear_d n N W /\ edge_values c n eta /\ covering_choice e (t / 2) n N ball /\
    let M := signed_roots W n N eta in
    projective_get_coordinates_d A eigh sums self perc k proj_dim pu_linear_d sr m =
      stored_d self (with_radius e (t / 2) t) (ppca_d A eigh (M ball) n proj_dim m) /\
    (forall b, (b < N)%nat -> ((exists i, in_ball ld (t / 2) i b) -> nearly_unit ((INR n + 3) * bpow radix2 (-52)) (nth b (M ball) [])) /\
                              ((forall i, ~ in_ball ld (t / 2) i b) -> not_finite (nth b (M ball) []))) /\
    forall ball', covering_choice e (t / 2) n N ball' -> exists s, length s = N /\
      M ball' = flip_rows Ropp s (M ball) /\
      ppca_d A eigh (M ball') n proj_dim m = flipped_answer Ropp s (ppca_d A eigh (M ball) n proj_dim m).
Proof.
  intros A eigh sums self n N perc k birth death c sr proj_dim m e ld HA Hs Hn2 Hc Hm Dd Hk Hco Hv Hp Db Ddt Hb Hd St.
  destruct (default_radius e n N perc birth death sr Hc Hm Dd Hp Db Ddt Hb Hd St) as (t & Ert & Ht & Hov & Hf).
  pose proof (C95_projective A eigh sums self n N perc k birth death c pu_linear_d sr proj_dim m HA Hs Hn2 Hc (proj1 Hm) Hk Hco Hv) as P.
  rewrite (start_exact birth sr Db) in P. specialize (P St). rewrite Ert in P. exists t. split; [exact Ht|]. apply P; [apply Ht|exact Hov|exact Hf].
Qed.
Print Assumptions C95_default.

(** Doubling is exact: a class is refused exactly if it is too short, and then the object is as before. *)
Theorem C95_short_class : forall A eigh sums self perc k birth death c f (sr : bool) proj_dim m,
  em_class (p_em self) 1 k birth death c -> double birth ->
  (death < (if sr then 2 * birth else birth) ->
     projective_get_coordinates_d A eigh sums self perc k proj_dim f sr m = (self, Raise ClassTooShort)) /\
  ((if sr then 2 * birth else birth) <= death ->
     let out := fst (projective_get_coordinates_d A eigh sums self perc k proj_dim f sr m) in
     em_r_cover (p_em out) = Some (fst (get_cover_radius_d perc birth death sr)) /\
     em_rips_threshold (p_em out) = Some (snd (get_cover_radius_d perc birth death sr))).
Proof.
  intros A eigh sums [e v] perc k birth death c f sr d m Hk Db. unfold projective_get_coordinates_d. cbn [p_em p_variance] in *.
  apply em_class1 in Hk. rewrite Hk. unfold cover_radius_d. rewrite (start_exact birth sr Db). split; intros H.
  - rewrite (proj2 (Rltb_true _ _) H). reflexivity.
  - rewrite (proj2 (Rltb_false _ _) H). cbv zeta. match goal with |- context [match ?q with Ok _ => _ | Raise _ => _ end] => destruct q as [[var X]|err] end; split; reflexivity.
Qed.
Print Assumptions C95_short_class.

(** ** Instances *)

(** Products and sums added up from the end. *)
Definition straight_real : arith R := real_arith dbl (fun _ => running_dot) (fun _ => running_sum) acos (fun l => dbl (running_sum l / INR (length l))).
Definition product_c (p : C * C) : C := let '((a, b), (x, y)) := p in (dbl (dbl (a * x) - dbl (b * y)), dbl (dbl (a * y) + dbl (b * x))).
Definition running_dot_c (u v : list C) : C :=
  let l := map product_c (combine u v) in (running_sum (map fst l), running_sum (map snd l)).
Definition straight_complex : arith C :=
  complex_arith dbl (fun _ => running_dot_c) (fun _ => running_sum) (fun z => dbl (sqrt (cabs2 z))) acos (fun l => dbl (running_sum l / INR (length l))).

Lemma dbl_neg x : dbl (- x) = - dbl x.
Proof. unfold dbl. apply round_NE_opp. Qed.
Lemma running_sum_neg l : running_sum (map Ropp l) = - running_sum l.
Proof.
  induction l as [|x [|y l] IH]; [cbn; ring|reflexivity|]. change (running_sum (map Ropp (x :: y :: l))) with (dbl (- x + running_sum (map Ropp (y :: l)))). rewrite IH.
  change (running_sum (x :: y :: l)) with (dbl (x + running_sum (y :: l))). rewrite <- dbl_neg. f_equal. ring.
Qed.
Lemma running_sum_double l : Forall double l -> double (running_sum l).
Proof. intros F. apply (RoundProofs.added_double _ _ (running_sum_added l) F). Qed.
Lemma combine_map_r {A B D} (f : B -> D) (u : list A) v : combine u (map f v) = map (fun p => (fst p, f (snd p))) (combine u v).
Proof. revert v. induction u as [|a u IH]; intros [|b v]; [reflexivity..|]. cbn [combine map fst snd]. rewrite IH. reflexivity. Qed.
Lemma flip_pairs {K T : Type} (neg : K -> K) (h : K * K -> T) : (forall x y, h (neg x, neg y) = h (x, y)) ->
  forall s u v, length u = length s -> length v = length s -> map h (combine (flip neg s u) (flip neg s v)) = map h (combine u v).
Proof.
  intros H. induction s as [|b s IH]; intros [|x u] [|y v] L1 L2; try discriminate; [reflexivity|]. injection L1 as L1. injection L2 as L2.
  unfold flip in *. cbn [combine map fst snd]. rewrite (IH u v L1 L2). f_equal. destruct b; [apply H|reflexivity].
Qed.
Lemma straight_real_signs : sign_symmetric Ropp straight_real.
Proof.
  unfold straight_real, real_arith, sign_symmetric. cbn [a_dot a_norm a_div a_abs a_conj]. split; [|split; [|split; [|split; [|split]]]].
  - intros _ s u v L1 L2. unfold running_dot. f_equal. apply (flip_pairs Ropp (fun p => dbl (fst p * snd p))); [|exact L1|exact L2]. intros x y. cbn [fst snd]. f_equal. ring.
  - intros _ u v. unfold running_dot. rewrite <- running_sum_neg. rewrite combine_map_r, !map_map. f_equal. apply map_ext. intros [x y]. cbn [fst snd]. rewrite <- dbl_neg. f_equal. ring.
  - intros _ v. do 3 f_equal. rewrite map_map. apply map_ext. intros x. f_equal. ring.
  - intros z s. rewrite <- dbl_neg. f_equal. unfold Rdiv. ring.
  - intros z. apply Rabs_Ropp.
  - reflexivity.
Qed.
Definition cneg (z : C) : C := (- fst z, - snd z).
Lemma straight_complex_signs : sign_symmetric cneg straight_complex.
Proof.
  unfold straight_complex, complex_arith, sign_symmetric. cbn [a_dot a_norm a_div a_abs a_conj]. split; [|split; [|split; [|split; [|split]]]].
  - intros _ s u v L1 L2. unfold running_dot_c. rewrite (flip_pairs cneg product_c); [reflexivity| |exact L1|exact L2]. intros [a b] [x y]. unfold product_c, cneg. cbn [fst snd]. f_equal; do 2 f_equal; f_equal; ring.
  - intros _ u v. unfold running_dot_c. cbn zeta. rewrite combine_map_r, !map_map. unfold cneg at 3. cbn [fst snd]. rewrite <- !running_sum_neg, !map_map.
    f_equal; f_equal; apply map_ext; intros [[a b] [x y]]; unfold product_c, cneg; cbn [fst snd]; rewrite <- dbl_neg; f_equal;
      [replace (a * - x) with (- (a * x)) by ring; replace (b * - y) with (- (b * y)) by ring|replace (a * - y) with (- (a * y)) by ring; replace (b * - x) with (- (b * x)) by ring]; rewrite !dbl_neg; ring.
  - intros _ v. do 3 f_equal. rewrite map_map. apply map_ext. intros [x y]. cbn [cneg fst snd]. replace (- x * - x) with (x * x) by ring. replace (- y * - y) with (y * y) by ring. reflexivity.
  - intros [x y] s. unfold cneg. cbn [fst snd]. rewrite <- !dbl_neg. f_equal; f_equal; ring.
  - intros [x y]. unfold cneg, cabs2. cbn [fst snd]. do 2 f_equal. ring.
  - intros [x y]. unfold cneg, conj. cbn [fst snd]. reflexivity.
Qed.
Lemma straight_doubles u v : double (running_dot u v).
Proof. apply running_sum_double. apply Forall_map, Forall_forall. intros; apply dbl_dbl. Qed.

(** The vector (3, 4) and two coordinates. *)
Example C95_sphere_case : let A := straight_real in
  (forall p u v, double (a_dot A p u v)) /\
  exists variance, ppca_d A (fun _ => Some [[Some 1; Some 0]; [Some 0; Some 1]]) [[Some 3; Some 4]] 2 1 Direct = Ok (variance, [[Some (dbl (4 / 5)); Some (dbl (3 / 5))]]).
Proof.
  split; [intros; apply straight_doubles|]. eexists. cbn -[dbl sqrt Reqb running_sum running_dot IZR Rmult Rdiv Rplus].
  assert (I : forall z, (Z.abs z <= 100)%Z -> dbl (IZR z) = IZR z) by (intros z Hz; apply double_IZR; lia).
  assert (D1 : running_dot [0; 1] [3; 4] = 4). { unfold running_dot. cbn [combine map fst snd running_sum]. replace (0 * 3) with 0 by ring. replace (1 * 4) with 4 by ring. rewrite !I by (cbn; lia). replace (0 + 4) with 4 by ring. apply I; cbn; lia. }
  assert (D2 : running_dot [1; 0] [3; 4] = 3). { unfold running_dot. cbn [combine map fst snd running_sum]. replace (1 * 3) with 3 by ring. replace (0 * 4) with 0 by ring. rewrite !I by (cbn; lia). replace (3 + 0) with 3 by ring. apply I; cbn; lia. }
  unfold reduce_columns, rotate_d, normalize_d, dot_d. cbn -[dbl sqrt Reqb running_sum running_dot IZR Rmult Rdiv Rplus]. rewrite D1, D2.
  assert (Q : dbl (sqrt (running_sum [dbl (4 * 4); dbl (3 * 3)])) = 5).
  { cbn [running_sum]. replace (4 * 4) with 16 by ring. replace (3 * 3) with 9 by ring. rewrite !I by (cbn; lia). replace (16 + 9) with 25 by ring. rewrite I by (cbn; lia). replace 25 with (5 * 5) by ring. rewrite sqrt_square by lra. apply I; cbn; lia. }
  change (Pos.to_nat 2) with 2%nat. cbn [firstn finite option_map map]. rewrite Q. rewrite (proj2 (Reqb_false 5 0)) by lra. reflexivity.
Qed.
(** The circle of C44: its hypotheses, those of [C95_projective] and of [C95_default], hold; two
    choices of a landmark differ at the fifth point. *)
Example C95_projective_case : let self := ring 2 1 in let e := p_em self in
  sign_symmetric Ropp straight_real /\ (forall l, added_up l (running_sum l)) /\
  em_consistent e 4 5 1 /\ em_metric e /\ (forall i b d, entry (em_dist_land_data e) i b d -> double d) /\
  em_class e 1 (PyInt 0) 1 2 (ring_cocycle 1) /\ edge_cocycle_mod 2 (ring_cocycle 1) (em_dist_land_land e) 4 2 /\
  get_cover_radius_d (1 / 2) 1 2 false = (3 / 4, 3 / 2) /\
  covering_choice e (3 / 4) 4 5 (fun b => if (b <? 4)%nat then b else 0%nat) /\
  covering_choice e (3 / 4) 4 5 (fun b => if (b <? 4)%nat then b else 1%nat).
Proof.
  destruct ring_projective as (H1 & H2 & H3 & H4 & _). split; [exact straight_real_signs|]. split; [exact running_sum_added|]. split; [exact H1|]. split; [exact H2|].
  split; [|split; [exact H3|split; [exact H4|split; [exact small_radius|split; apply ring_choice; lia]]]].
  intros i b d He. cbn [ring p_em em_dist_land_data] in He. apply (entry_at _ _ _ _ _ _ ring_ld_matrix) in He as (Hi & Hb & ->).
  assert (I : forall z, (Z.abs z <= 100)%Z -> double (IZR z)) by (intros z Hz; apply double_IZR; lia).
  assert (J : forall z, (Z.abs z <= 100)%Z -> double (IZR z / 2)).
  { intros z Hz. replace (IZR z / 2) with (IZR z * bpow radix2 (-1)) by (change (bpow radix2 (-1)) with (/ 2); lra). apply double_F; [lia|lia]. }
  upto4 i Hi; upto5 b Hb; unfold at2; cbn [ring_ld nth]; first [apply I; cbn; lia|apply J; cbn; lia].
Qed.

(** An eigh for real arrays, which is used on the class map of the second instance. *)
Example C95_unrounded_case : let eigh := fun G : list (list (option R)) => if (length G =? 2)%nat then Some [[Some 1; Some 0]; [Some 0; Some 1]] else None in
  eigh_shape (eigh_of_real eigh) /\ Forall (fun x => length x = 2%nat) [[Some 3; Some 4]] /\
  exists variance X, ppca_d exact_real eigh [[Some 3; Some 4]] 2 0 Direct = Ok (variance, X).
Proof.
  split; [|split; [repeat constructor|]].
  - intros d G U [L F] E. unfold eigh_of_real in E. assert (L2 : length (as_real G) = d) by (unfold as_real; rewrite map_length; exact L). rewrite L2 in E. destruct (Nat.eqb_spec d 2) as [->|]; [|discriminate]. injection E as <-. repeat constructor.
  - eexists _, _. reflexivity.
Qed.

(** The circle with birth 1 and death 2: with the standard range the class starts at 2, which is not
    too late; one with birth 3/2 is refused. *)
Example C95_short_case A eigh sums perc f d m :
  let e := p_em (ring 2 1) in
  let self := mkProj (mkEM 2 [[]; [(3/2, 2)]] (em_idx_land e) (em_n_landmarks e) (em_dist_land_data e) (em_coverage e) (em_dist_land_land e) (em_cocycles e) None None) None in
  projective_get_coordinates_d A eigh sums self perc (PyInt 0) d f true m = (self, Raise ClassTooShort).
Proof.
  intros e self. apply (C95_short_class A eigh sums self perc (PyInt 0) (3/2) 2 (ring_cocycle 1)); [apply em_class1; reflexivity| |lra].
  replace (3 / 2) with (IZR 3 * bpow radix2 (-1)) by (pow2; lra). apply double_F; cbn; lia.
Qed.
