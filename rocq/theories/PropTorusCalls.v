(** PropTorusCalls.v -- C34, C35, C36, C38, C39: effects, errors and recombination in
    ToroidalCoords.get_coordinates. *)
From Coq Require Import Sorted Permutation.
From Verif Require Import Base BaseProofs CombinatorialModel SpecSimplex CombinatorialProofs
  DeltaModel SpecRips RipsProofs DeltaProofs DeltaFacts RealBase RealSum SpecRepair RepairModel RepairProofs
  EMModel SpecEM EMProofs CircleModel SpecCircle CircleProofs LLLModel SpecLLL LLLProofs
  CohomologyModel SpecCohomology CohomologyProofs PropDelta PropRepair PropCohomology PropEM PropCircle PropLLL
  ToroidalModel SpecToroidal ToroidalProofs ToroidalFacts ToroidalCalls.
Local Open Scope R_scope.

(** C34: whatever calls were made before, and however they ended, a call returns (or raises)
    what it does on the fresh object, and stores the same matrices. *)
Theorem C34_calls_are_independent :
  forall x n N y ext perc idxs f sr check,
  consistent x n N -> field_valued x -> history x y ->
  let fresh := get_coordinates ext x perc idxs f sr check in
  let again := get_coordinates ext y perc idxs f sr check in
  snd again = snd fresh /\
  ((1 < length idxs)%nat -> (exists coords, snd fresh = Ok coords) ->
    t_original_gram (fst again) = t_original_gram (fst fresh) /\ t_gram (fst again) = t_gram (fst fresh) /\
    t_change_basis (fst again) = t_change_basis (fst fresh)) /\
  (forall idx, snd (circular_get_coordinates ext y perc idx f sr check) = snd (circular_get_coordinates ext x perc idx f sr check)).
Proof.
  intros x n N y ext perc idxs f sr check C FV H fresh again.
  destruct (co_classes _ _ _ C) as (dgm & cs & E1 & E2 & L & _).
  destruct (history_aged x y dgm cs E1 E2 L H) as [A ET]. pose proof A as (S & _ & _ & A4).
  destruct (A4 cs E2) as (cs' & E2' & F).
  assert (G : Forall2 (fun c c' => lift_to_integer_cocycle (em_prime (t_em x)) c = lift_to_integer_cocycle (em_prime (t_em x)) c') cs cs').
  { assert (FC : forall c, In c cs -> Forall (fun row => (0 <= snd row < em_prime (t_em x))%Z) (c_rows c)).
    { intros c Hc; apply Forall_forall; intros row Hr; apply (FV cs c row E2 Hc Hr). }
    pose proof (co_prime _ _ _ C) as Hp. clear - F FC Hp. induction F as [|c c' l l' (m & ->) F IH]; constructor.
    - symmetry; apply (iter_lift_field _ m c Hp). apply FC; left; reflexivity.
    - apply IH; intros c0 H0; apply FC; right; exact H0. }
  destruct (get_same ext x y perc idxs f sr check dgm cs cs' E1 E2 L S ET E2' G) as [G1 G2].
  split; [exact G1|]. split; [exact G2|]. intros idx.
  destruct (get_same ext x y perc [idx] f sr check dgm cs cs' E1 E2 L S ET E2' G) as [G3 _].
  unfold circular_get_coordinates.
  destruct (get_coordinates ext x perc [idx] f sr check) as [x1 r1], (get_coordinates ext y perc [idx] f sr check) as [y1 r2].
  cbn [snd] in *; subst r2; reflexivity.
Qed.
Print Assumptions C34_calls_are_independent.

(** C35: what calls do to the stored cocycles: the values read for a class in any history are
    the original ones, or each one reduced by the prime if it exceeds (p - 1) / 2 ... *)
Theorem C35_stored_cocycles :
  forall x n N y k birth death c',
  consistent x n N -> field_valued x -> history x y -> class_of y k birth death c' ->
  exists c, class_of x k birth death c /\ c_dim c' = c_dim c /\
    (c' = c \/
     Forall2 (fun row row' => fst row' = fst row /\
        ((2 * snd row <= em_prime (t_em x) - 1)%Z /\ snd row' = snd row \/
         (2 * snd row > em_prime (t_em x) - 1)%Z /\ snd row' = (snd row - em_prime (t_em x))%Z)) (c_rows c) (c_rows c')).
Proof.
  intros x n N y k birth death c' C FV H Hc.
  destruct (co_classes _ _ _ C) as (dgm & cs & E1 & E2 & L & _).
  destruct (history_aged x y dgm cs E1 E2 L H) as [A ET]. pose proof A as (S & _ & _ & A4).
  destruct (A4 cs E2) as (cs' & E2' & F). pose proof (f2_length F) as LF.
  assert (E1' : nth_error (em_dgms (t_em y)) 1 = Some dgm) by (destruct S as (_ & -> & _); exact E1).
  apply em_class1 in Hc. rewrite (rep_ok _ dgm cs' k E1' E2' ltac:(congruence)) in Hc.
  destruct k as [z|]; [|discriminate]. destruct (class_pos (length cs') (PyInt z)) as [i|] eqn:Ep; [|discriminate].
  injection Hc as Hbd <-. pose proof (pos_lt _ _ _ Ep) as Hi. rewrite <- LF in Ep, Hi.
  destruct (nth_error cs i) as [c|] eqn:Ec; [|apply nth_error_None in Ec; lia].
  destruct (f2_nth _ _ _ _ _ F Ec) as (c2 & Ec2 & m & Em).
  rewrite (nth_error_nth _ _ _ Ec2). exists c. split; [apply em_class1; rewrite (rep_ok _ dgm cs (PyInt z) E1 E2 L), Ep, (nth_error_nth _ _ _ Ec), Hbd; reflexivity|].
  assert (FC : Forall (fun row => (0 <= snd row < em_prime (t_em x))%Z) (c_rows c)).
  { apply Forall_forall; intros row Hr; apply (FV cs c row E2 (nth_error_In _ _ Ec) Hr). }
  destruct (iter_lift_field' _ m c (co_prime _ _ _ C) FC) as [Q|Q]; rewrite Em, Q.
  - split; [reflexivity|left; reflexivity].
  - split; [reflexivity|right]. unfold lift_to_integer_cocycle; cbn [c_rows].
    clear. induction (c_rows c) as [|row l IH]; cbn [map]; constructor; [|exact IH]. cbn [fst snd]. split; [reflexivity|].
    unfold lift_value. destruct (Z.ltb_spec (em_prime (t_em x) - 1) (2 * snd row)); [right|left]; split; lia.
Qed.
Print Assumptions C35_stored_cocycles.

(** ... and the second case does happen, for every selected class as soon as the selection has
    a common support (whether or not the call succeeds): the documented range 0 .. p-1 is lost
    for every class with a value above (p - 1) / 2. *)
Theorem C35_field_values_refuted :
  forall x n N ext perc idxs f sr check k birth death c vs v,
  consistent x n N -> field_valued x ->
  Forall (fun k => exists b d c, class_of x k b d c) idxs ->
  (forall k1 k2 b1 d1 c1 b2 d2 c2, In k1 idxs -> In k2 idxs -> class_of x k1 b1 d1 c1 -> class_of x k2 b2 d2 c2 -> b1 < d2) ->
  In k idxs -> class_of x k birth death c ->
  In (vs, v) (c_rows c) -> (2 * v > em_prime (t_em x) - 1)%Z ->
  let x' := fst (get_coordinates ext x perc idxs f sr check) in
  exists c', class_of x' k birth death c' /\ In (vs, (v - em_prime (t_em x))%Z) (c_rows c') /\ (v - em_prime (t_em x) < 0)%Z.
Proof.
  intros x n N ext perc idxs f sr check k birth death c vs v C FV Fc Ov Hk Hc Hv Hv2 x'.
  destruct (classes_reps x idxs Fc) as (reps & Er & Fr).
  destruct (get_rep_inv x n N k birth death c C Hc) as (dgm & cs & i & E1 & E2 & L & Ep & Ed & Ec).
  destruct (call_front ext x perc idxs f sr check reps dgm cs E1 E2 L Er ltac:(intros ->; contradiction))
    as (b & d & B1 & B2 & D1 & D2 & _ & G).
  destruct (in_reps_birth x idxs reps b Fr B1) as (k1 & d1 & c1 & I1 & C1).
  destruct (in_reps_death x idxs reps d Fr D1) as (k2 & b2 & c2 & I2 & C2).
  destruct (G (Ov k1 k2 _ _ _ _ _ _ I1 I2 C1 C2)) as (store & cs' & N1 & L1 & H1 & ES & _).
  destruct (get_steps ext x perc idxs f sr check dgm cs E1 E2 L) as [(SD & _) _].
  fold x' in ES, SD. exists (lift_to_integer_cocycle (em_prime (t_em x)) c).
  assert (FC : Forall (fun row => (0 <= snd row < em_prime (t_em x))%Z) (c_rows c)).
  { apply Forall_forall; intros row Hr; apply (FV cs c row E2 (nth_error_In _ _ Ec) Hr). }
  split; [|split].
  - apply em_class1. assert (E1' : nth_error (em_dgms (t_em x')) 1 = Some dgm) by (destruct SD as (_ & -> & _); exact E1).
    assert (E2' : nth_error (em_cocycles (t_em x')) 1 = Some cs') by (rewrite ES; exact N1).
    rewrite (rep_ok _ dgm cs' k E1' E2' ltac:(congruence)), L1, Ep.
    destruct k as [z|]; [|discriminate]. rewrite (nth_error_nth _ _ _ Ed).
    pose proof (H1 i c Ec) as H2. pose proof (times_pos _ idxs (PyInt z) i Hk Ep) as T1.
    destruct (times (length cs) idxs i) as [|m]; [lia|].
    rewrite (iter_lift_field _ m c (co_prime _ _ _ C) FC) in H2. rewrite (nth_error_nth _ _ _ H2); reflexivity.
  - unfold lift_to_integer_cocycle; cbn [c_rows]. apply in_map_iff. exists (vs, v); split; [|exact Hv]. cbn [fst snd]. f_equal.
    unfold lift_value; destruct (Z.ltb_spec (em_prime (t_em x) - 1) (2 * v)); lia.
  - rewrite Forall_forall in FC; pose proof (FC _ Hv) as Q; cbn [snd] in Q; lia.
Qed.
Print Assumptions C35_field_values_refuted.

(** C36: selections without common support are rejected, nothing is changed ... *)
Theorem C36_disjoint_supports :
  forall x n N ext perc idxs f sr check k1 b1 d1 c1 k2 b2 d2 c2,
  consistent x n N -> Forall (fun k => exists b d c, class_of x k b d c) idxs ->
  In k1 idxs -> class_of x k1 b1 d1 c1 -> In k2 idxs -> class_of x k2 b2 d2 c2 -> d1 <= b2 ->
  get_coordinates ext x perc idxs f sr check = (x, Raise SupportsDisjoint).
Proof.
  intros x n N ext perc idxs f sr check k1 b1 d1 c1 k2 b2 d2 c2 C Fc I1 C1 I2 C2 H.
  destruct (classes_reps x idxs Fc) as (reps & Er & Fr).
  destruct (co_classes _ _ _ C) as (dgm & cs & E1 & E2 & L & _).
  destruct (call_front ext x perc idxs f sr check reps dgm cs E1 E2 L Er ltac:(intros ->; contradiction))
    as (b & d & B1 & B2 & D1 & D2 & G & _).
  destruct (class_in_reps x idxs reps k1 _ _ _ Fr I1 C1) as [_ Q1].
  destruct (class_in_reps x idxs reps k2 _ _ _ Fr I2 C2) as [Q2 _].
  apply G. specialize (B2 _ Q2); specialize (D2 _ Q1); lra.
Qed.
Print Assumptions C36_disjoint_supports.

(** ... and otherwise either the classes are too short for the standard range, or the threshold
    used, the same for all, lies in every selected class's lifetime. *)
Theorem C36_common_threshold :
  forall x n N ext perc idxs f (sr check : bool),
  consistent x n N -> idxs <> [] -> Forall (fun k => exists b d c, class_of x k b d c) idxs ->
  (forall k1 k2 b1 d1 c1 b2 d2 c2, In k1 idxs -> In k2 idxs -> class_of x k1 b1 d1 c1 -> class_of x k2 b2 d2 c2 -> b1 < d2) ->
  0 < perc < 1 ->
  let out := get_coordinates ext x perc idxs f sr check in
  let too_short := sr = true /\ exists k1 k2 b1 d1 c1 b2 d2 c2,
       In k1 idxs /\ In k2 idxs /\ class_of x k1 b1 d1 c1 /\ class_of x k2 b2 d2 c2 /\ d2 < 2 * b1 in
  (too_short /\ snd out = Raise ClassTooShort) \/
  (~ too_short /\ exists t, em_rips_threshold (t_em (fst out)) = Some t /\ em_r_cover (t_em (fst out)) = Some (t / 2) /\
     forall k b d c, In k idxs -> class_of x k b d c ->
       (sr = false -> b < t < d) /\ (sr = true -> 2 * b <= t <= d)).
Proof.
  intros x n N ext perc idxs f sr check C Nn Fc Ov Hp out too_short.
  destruct (classes_reps x idxs Fc) as (reps & Er & Fr).
  destruct (co_classes _ _ _ C) as (dgm & cs & E1 & E2 & L & _).
  destruct (call_front ext x perc idxs f sr check reps dgm cs E1 E2 L Er Nn)
    as (b & d & B1 & B2 & D1 & D2 & _ & G).
  destruct (in_reps_birth x idxs reps b Fr B1) as (k1 & d1 & c1 & I1 & C1).
  destruct (in_reps_death x idxs reps d Fr D1) as (k2 & b2 & c2 & I2 & C2).
  pose proof (Ov k1 k2 _ _ _ _ _ _ I1 I2 C1 C2) as Hlt.
  destruct (G Hlt) as (store & cs' & _ & _ & _ & _ & G1 & G2). clear G.
  set (start := if sr then 2 * b else b) in *.
  destruct (Rlt_le_dec d start) as [Hs|Hs].
  - left; split; [|apply G1, Hs]. destruct sr; subst start; [|lra]. split; [reflexivity|].
    exists k1, k2, b, d1, c1, b2, d, c2; auto.
  - right; split.
    + intros (-> & j1 & j2 & e1 & f1 & g1 & e2 & f2 & g2 & J1 & J2 & K1 & K2 & Hh). subst start.
      destruct (class_in_reps x idxs reps j1 _ _ _ Fr J1 K1) as [Q1 _].
      destruct (class_in_reps x idxs reps j2 _ _ _ Fr J2 K2) as [_ Q2].
      specialize (B2 _ Q1); specialize (D2 _ Q2); lra.
    + destruct (G2 Hs) as (T1 & T2 & _). cbv zeta in T1, T2. eexists; split; [exact T1|]. split; [exact T2|].
      intros k b0 d0 c0 Hk Hc. destruct (class_in_reps x idxs reps k _ _ _ Fr Hk Hc) as [Q1 Q2].
      specialize (B2 _ Q1); specialize (D2 _ Q2). split; intros ->; subst start; nra.
Qed.
Print Assumptions C36_common_threshold.

(** Invalid selections: an index that is not an integer or out of range, or no index at all,
    raises and changes nothing. *)
Theorem C36_invalid_selection :
  forall x n N ext perc idxs f sr check,
  consistent x n N ->
  (idxs = [] \/ exists k, In k idxs /\ forall b d c, ~ class_of x k b d c) ->
  exists err, get_coordinates ext x perc idxs f sr check = (x, Raise err).
Proof.
  intros x n N ext perc idxs f sr check C [->|(k & Hk & Hn)]; [eexists; reflexivity|].
  unfold get_coordinates.
  destruct (map_res (fun k => get_representative_cocycle (t_em x) k 1) idxs) as [reps|err] eqn:Er; [|exists err; reflexivity].
  exfalso. apply In_nth_error in Hk; destruct Hk as (i & Hi). destruct (map_res_nth _ _ _ _ _ Er Hi) as ([[b d] c] & _ & Ec).
  exact (Hn b d c (proj2 (em_class1 _ _ _ _ _) Ec)).
Qed.
Print Assumptions C36_invalid_selection.

(** The stored matrices are those of the last call that returned with several classes: a call that
    raises or that selects one class keeps them. *)
Theorem C36_stored_matrices :
  forall ext x perc idxs f sr check,
  let out := get_coordinates ext x perc idxs f sr check in
  ((exists err, snd out = Raise err) \/ (length idxs <= 1)%nat) ->
  t_original_gram (fst out) = t_original_gram x /\ t_gram (fst out) = t_gram x /\ t_change_basis (fst out) = t_change_basis x.
Proof.
  intros ext x perc idxs f sr check out H. unfold out in *. clear out. unfold get_coordinates in *.
  destruct (map_res (fun k => get_representative_cocycle (t_em x) k 1) idxs) as [reps|err] eqn:Er; [|repeat split].
  destruct (np_max _) as [b|]; [|repeat split]. destruct (np_min _) as [d|]; [|repeat split]. destruct (Rleb d b); [repeat split|].
  destruct (for_in _ _ _) as [e1|]; [|repeat split]. destruct (get_cover_radius _ _ _ _ _) as [e2 [rt|err]]; cbn [bind] in *; [|repeat split].
  destruct (map_res (fun k => get_representative_cocycle e2 k 1) idxs) as [lifted|err] eqn:El; cbn [bind] in *; [|repeat split].
  destruct (coordinates _ _ _ _ _ _ _ _) as [[coords [[[g0 g1] cb]|]]|err] eqn:Ec; try (repeat split; fail).
  exfalso. destruct H as [(err & H)|H]; [discriminate H|].
  assert (L : (length (map snd lifted) <= 1)%nat) by (rewrite map_length, (map_res_length _ _ _ El); exact H).
  apply coordinates_inv in Ec. destruct Ec as (M0 & vecs & etas & W & hf & A & _ & _ & _ & _ & _ & _ & One & _). destruct (One L) as [_ E]. discriminate E.
Qed.
Print Assumptions C36_stored_matrices.

(** C38: the returned coordinates are the integer recombination by [_change_basis] of the
    coordinates [A] of the single classes, and these are recovered by the inverse integer matrix.
    Row [h] of [A] is what CircularCoords returns for class [h] at the same threshold. *)
Theorem C38_recombination :
  forall ext x n N perc idxs f sr check x' rows,
  consistent x n N -> field_valued x -> sound_numpy ext -> sound_cholesky ext -> (forall r, bump f r) ->
  get_coordinates ext x perc idxs f sr check = (x', Ok rows) ->
  let k := length idxs in
  exists t A U V, em_rips_threshold (t_em x') = Some t /\ length A = k /\ length rows = k /\
    matrix k k U /\ matrix k k V /\ zmat_mul k k U V k = zmat_id k /\ zmat_mul k k V U k = zmat_id k /\
    ((1 < k)%nat -> t_change_basis x' = Some (map (map IZR) U)) /\ (k = 1%nat -> U = [[1%Z]]) /\
    linear_combination A (Coeffs2 (map (map IZR) U)) = Ok (Maps2 rows) /\
    linear_combination rows (Coeffs2 (map (map IZR) V)) = Ok (Maps2 A) /\
    forall h idx row, nth_error idxs h = Some idx -> nth_error A h = Some row ->
    forall birth death c perc' (sr' : bool), class_of x idx birth death c ->
    let start := if sr' then 2 * birth else birth in
    start <= death -> (1 - perc') * start + perc' * death = t ->
    snd (circular_get_coordinates ext x perc' idx f sr' check) = Ok row.
Proof.
  intros ext x n N perc idxs f sr check x' rows C FV HE HC Hf E k.
  destruct (call_main ext x n N perc idxs f sr check x' rows C HE HC Hf E) as
    (reps & birth & death & t & lifted & vecs & etas & M0 & W & hf & A & U & Ereps & K1 & B1 & B2 & D1 & D2 & Lt & St & Et & T1 & T2 & Fl & Ev & Fv & Frep & E0 & EW & Feta & Ehf & EA & MA & FA & HU & U1 & Elc & _ & Many).
  destruct (co_table _ _ _ C) as (n' & Hn' & ET). specialize (Frep n' Hn' ET).
  destruct (sq_ll x n N C) as [Sq Ln].
  destruct HU as (MU & V & MV & UV & VU). fold k in MA, MU, MV, UV, VU, U1, Many, K1.
  destruct (C55_functorial V U A k k k N MV MU MA K1 K1 K1) as (out & Eo & Eo2).
  rewrite Elc in Eo; injection Eo as <-. rewrite VU in Eo2.
  rewrite (C55_identity A k N MA K1) in Eo2.
  2:{ intros i b v Hv. destruct (entry_bounds _ _ _ _ _ _ MA Hv) as [Bi Bb].
      destruct (range_nan_pattern x N (t / 2) A FA i b ltac:(destruct MA; lia) Bb _ Hv) as [G _]. apply (G v eq_refl). }
  2:{ intros i j b Hv Hj. destruct (entry_bounds _ _ _ _ _ _ MA Hv) as [Bi Bb].
      destruct (matrix_entry k N A j b MA Hj Bb) as ([y|] & Ey); [exfalso|exact Ey].
      assert (Li : (i < length A)%nat) by (destruct MA; lia). assert (Lj : (j < length A)%nat) by (destruct MA; lia).
      destruct (covered_dec x n N C (t / 2) b) as [Cv|Cv].
      - rewrite Forall_forall in FA. destruct Hv as (ri & Hri & Hvi). destruct (FA ri (nth_error_In _ _ Hri)) as [_ Q].
        destruct (Q b Bb) as [Q1 _]. destruct (Q1 Cv) as (v & Hv2 & _). congruence.
      - rewrite Forall_forall in FA. destruct Ey as (rj & Hrj & Hvj). destruct (FA rj (nth_error_In _ _ Hrj)) as [_ Q].
        destruct (Q b Bb) as [_ Q1]. rewrite (Q1 Cv) in Hvj. discriminate. }
  destruct (combine_rows x N (t / 2) A k U rows K1 MA FA MU Elc) as ([Lr _] & _ & _).
  exists t, A, U, V. split; [exact T1|]. split; [apply MA|]. split; [exact Lr|].
  repeat match goal with |- _ /\ _ => split; [assumption|] end.
  split; [intros H1; destruct (Many H1) as (gm & Lm & B' & _ & _ & _ & _ & _ & _ & _ & _ & G); exact G|].
  split; [intros H1; destruct (U1 H1) as [-> _]; reflexivity|].
  split; [exact Elc|]. split; [exact Eo2|].
  intros h idx row Hidx Hrow b0 d0 c perc' sr' Hc start Hst Ht.
  destruct (map_res_nth _ _ _ _ _ Ereps Hidx) as ([[b1 d1] c1] & Hrep & Ec1). rewrite (proj1 (em_class1 _ _ _ _ _) Hc) in Ec1; injection Ec1 as <- <- <-.
  destruct (f2_nth _ _ _ _ _ Fl Hrep) as (lc & Hlc & m & Elc'). cbn [snd] in Elc'.
  destruct (map_res_nth _ _ _ _ _ Ev Hlc) as (v & Hv & Evv).
  destruct (f2_nth _ _ _ _ _ Frep Hv) as (e & He & Rep). cbn beta iota in Rep.
  destruct (map_res_nth _ _ _ _ _ Ehf He) as (hi & Hhi & Eint).
  destruct (map_res_nth _ _ _ _ _ EA Hhi) as (row' & Hrow' & Esp). rewrite Hrow in Hrow'; injection Hrow' as <-.
  destruct (get_rep_inv x n N idx b0 d0 c C Hc) as (dgm & cs & i & G1 & G2 & G3 & Ep & Ed & Ec).
  assert (FC : Forall (fun row => (0 <= snd row < em_prime (t_em x))%Z) (c_rows c)).
  { apply Forall_forall; intros rw Hr; apply (FV cs c rw G2 (nth_error_In _ _ Ec) Hr). }
  rewrite (iter_lift_field _ m c (co_prime _ _ _ C) FC) in Elc'. subst lc.
  assert (Hb0 : b0 <= birth) by (apply B2; apply (in_map (fun r => fst (fst r)) reps (b0, d0, c)); exact (nth_error_In _ _ Hrep)).
  assert (Hd0 : death <= d0) by (apply D2; apply (in_map (fun r => snd (fst r)) reps (b0, d0, c)); exact (nth_error_In _ _ Hrep)).
  apply (single_call ext x n N perc' idx f sr' check b0 d0 c row C Hc ltac:(lra) Hst).
  fold start. rewrite Ht. unfold coordinates.
  destruct (get_covering_partition (t_em x) (t / 2) f) as [varphi ball] eqn:Eg; cbn [fst snd] in Esp.
  rewrite E0; cbn [bind map_res]. rewrite (co_landmarks _ _ _ C), Evv; cbn [bind].
  assert (Er : (if check then repair_all Rltb (x_junk ext) (em_prime (t_em x)) (x_milp ext) (em_dist_land_land (t_em x)) t (t_table x) [v] else Ok [v]) = Ok [e]).
  { destruct check; [|congruence]. rewrite ET. pose proof (co_pos _ _ _ C).
    apply repaired_single; try assumption; rewrite ?Ln; try assumption; try lia.
    rewrite Forall_forall in Fv; apply Fv, (nth_error_In _ _ Hv). }
  rewrite Er; cbn [bind]. rewrite EW; cbn [bind map_res]. rewrite Eint; cbn [bind map_res]. rewrite Esp; cbn [bind length Nat.ltb Nat.leb]. reflexivity.
Qed.
Print Assumptions C38_recombination.
