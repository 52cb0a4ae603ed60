(** PropRoundCalls.v -- C98: errors, thresholds and effects of calls of ToroidalCoords and
    CircularCoords in double precision. *)
From Coq Require Import Reals List ZArith Lia Lra.
From Flocq Require Import Core.
From Verif Require Import Base BaseProofs RealBase RealSum EMModel SpecEM EMProofs PropEM CohomologyModel SpecCohomology CohomologyProofs ToroidalModel SpecToroidal ToroidalProofs ToroidalFacts ToroidalCalls
  SpecRepair RepairModel LLLModel SpecLLL ComplexBase PPCAModel ClassMapModel PropClassMap ComplexProjModel PropComplexProj SpecCalls CallFacts PropCalls GraphExample PropRepairCall PropTheta SpecRound RoundBase RoundModel RoundTorusModel RoundProofs RoundTorusProofs RoundTorusFacts RoundTorusCalls PropRound RoundCover PropCover PropRoundTorus RoundPPCAModel PropRoundPPCA RoundCProjModel.
Import ListNotations.
Local Open Scope R_scope.

(** Whatever calls were made before, and however they ended, a call returns (or raises) what it does
    on the fresh object, bit for bit, and stores the same matrices. *)
Theorem C98_calls_are_independent :
  forall sum_ dot_ x n N y ext perc idxs f sr check,
  consistent x n N -> field_valued x -> history_d x y ->
  let fresh := get_coordinates_d sum_ dot_ ext x perc idxs f sr check in
  let again := get_coordinates_d sum_ dot_ ext y perc idxs f sr check in
  snd again = snd fresh /\
  ((1 < length idxs)%nat -> (exists coords, snd fresh = Ok coords) ->
    t_original_gram (fst again) = t_original_gram (fst fresh) /\ t_gram (fst again) = t_gram (fst fresh) /\
    t_change_basis (fst again) = t_change_basis (fst fresh)) /\
  (forall idx, snd (circular_get_coordinates_d sum_ dot_ ext y perc idx f sr check) = snd (circular_get_coordinates_d sum_ dot_ ext x perc idx f sr check)).
Proof.
  intros sum_ dot_ x n N y ext perc idxs f sr check C FV H fresh again.
  destruct (co_classes _ _ _ C) as (dgm & cs & E1 & E2 & L & _).
  destruct (history_aged_d x y dgm cs E1 E2 L H) as [A ET]. pose proof A as (S & _ & _ & A4).
  destruct (A4 cs E2) as (cs' & E2' & F).
  assert (G : Forall2 (fun c c' => lift_to_integer_cocycle (em_prime (t_em x)) c = lift_to_integer_cocycle (em_prime (t_em x)) c') cs cs').
  { assert (FC : forall c, In c cs -> Forall (fun row => (0 <= snd row < em_prime (t_em x))%Z) (c_rows c)).
    { intros c Hc; apply Forall_forall; intros row Hr; apply (FV cs c row E2 Hc Hr). }
    pose proof (co_prime _ _ _ C) as Hp. clear - F FC Hp. induction F as [|c c' l l' (m & ->) F IH]; constructor.
    - symmetry; apply (iter_lift_field _ m c Hp). apply FC; left; reflexivity.
    - apply IH; intros c0 H0; apply FC; right; exact H0. }
  destruct (get_same_d sum_ dot_ ext x y perc idxs f sr check dgm cs cs' E1 E2 L S ET E2' G) as [G1 G2].
  split; [exact G1|]. split; [exact G2|]. intros idx.
  destruct (get_same_d sum_ dot_ ext x y perc [idx] f sr check dgm cs cs' E1 E2 L S ET E2' G) as [G3 _].
  unfold circular_get_coordinates_d.
  destruct (get_coordinates_d sum_ dot_ ext x perc [idx] f sr check) as [x1 r1], (get_coordinates_d sum_ dot_ ext y perc [idx] f sr check) as [y1 r2].
  cbn [snd] in *; subst r2; reflexivity.
Qed.
Print Assumptions C98_calls_are_independent.

(** The stored values read for a class in any history are the original ones, or each one reduced by
    the prime if it exceeds (p - 1) / 2. *)
Theorem C98_stored_cocycles :
  forall x n N y k birth death c',
  consistent x n N -> field_valued x -> history_d x y -> class_of y k birth death c' ->
  exists c, class_of x k birth death c /\ c_dim c' = c_dim c /\
    (c' = c \/
     Forall2 (fun row row' => fst row' = fst row /\
        ((2 * snd row <= em_prime (t_em x) - 1)%Z /\ snd row' = snd row \/
         (2 * snd row > em_prime (t_em x) - 1)%Z /\ snd row' = (snd row - em_prime (t_em x))%Z)) (c_rows c) (c_rows c')).
Proof.
  intros x n N y k birth death c' C FV H Hc.
  destruct (co_classes _ _ _ C) as (dgm & cs & E1 & E2 & L & _).
  destruct (history_aged_d x y dgm cs E1 E2 L H) as [A ET]. pose proof A as (S & _ & _ & A4).
  destruct (A4 cs E2) as (cs' & E2' & F). pose proof (f2_length F) as LF.
  assert (E1' : nth_error (em_dgms (t_em y)) 1 = Some dgm) by (destruct S as (_ & -> & _); exact E1).
  apply em_class1 in Hc. rewrite (rep_ok _ dgm cs' k E1' E2' ltac:(congruence)) in Hc.
  destruct k as [z|]; [|discriminate]. destruct (class_pos (length cs') (PyInt z)) as [i|] eqn:Ep; [|discriminate].
  injection Hc as Hbd <-. pose proof (pos_lt _ _ _ Ep) as Hi. rewrite <- LF in Ep, Hi.
  destruct (nth_error cs i) as [c|] eqn:Ec; [|apply nth_error_None in Ec; lia].
  destruct (f2_nth _ _ _ _ _ F Ec) as (c2 & Ec2 & m & Em).
  rewrite (nth_error_nth _ _ _ Ec2). exists c. split; [apply em_class1; rewrite (rep_ok _ dgm cs (PyInt z) E1 E2 L), Ep, (nth_error_nth _ _ _ Ec), Hbd; reflexivity|].
  assert (FC : Forall (fun row => (0 <= snd row < em_prime (t_em x))%Z) (c_rows c)).
  { apply Forall_forall; intros row Hr; apply (FV cs c row E2 (nth_error_In _ _ Ec) Hr). }
  destruct (iter_lift_field' _ m c (co_prime _ _ _ C) FC) as [Q|Q]; rewrite Em, Q.
  - split; [reflexivity|left; reflexivity].
  - split; [reflexivity|right]. unfold lift_to_integer_cocycle; cbn [c_rows].
    clear. induction (c_rows c) as [|row l IH]; cbn [map]; constructor; [|exact IH]. cbn [fst snd]. split; [reflexivity|].
    unfold lift_value. destruct (Z.ltb_spec (em_prime (t_em x) - 1) (2 * snd row)); [right|left]; split; lia.
Qed.
Print Assumptions C98_stored_cocycles.

(** Selections without common support are rejected, and nothing is changed. *)
Theorem C98_disjoint_supports :
  forall sum_ dot_ x n N ext perc idxs f sr check k1 b1 d1 c1 k2 b2 d2 c2,
  consistent x n N -> Forall (fun k => exists b d c, class_of x k b d c) idxs ->
  In k1 idxs -> class_of x k1 b1 d1 c1 -> In k2 idxs -> class_of x k2 b2 d2 c2 -> d1 <= b2 ->
  get_coordinates_d sum_ dot_ ext x perc idxs f sr check = (x, Raise SupportsDisjoint).
Proof.
  intros sum_ dot_ x n N ext perc idxs f sr check k1 b1 d1 c1 k2 b2 d2 c2 C Fc I1 C1 I2 C2 H.
  destruct (classes_reps x idxs Fc) as (reps & Er & Fr).
  destruct (co_classes _ _ _ C) as (dgm & cs & E1 & E2 & L & _).
  destruct (call_front_d sum_ dot_ ext x perc idxs f sr check reps dgm cs E1 E2 L Er ltac:(intros ->; contradiction))
    as (b & d & B1 & B2 & D1 & D2 & G & _).
  destruct (class_in_reps x idxs reps k1 _ _ _ Fr I1 C1) as [_ Q1].
  destruct (class_in_reps x idxs reps k2 _ _ _ Fr I2 C2) as [Q2 _].
  apply G. specialize (B2 _ Q2); specialize (D2 _ Q1); lra.
Qed.
Print Assumptions C98_disjoint_supports.

(** So are invalid indices, and an empty selection. *)
Theorem C98_invalid_selection :
  forall sum_ dot_ x n N ext perc idxs f sr check,
  consistent x n N ->
  (idxs = [] \/ exists k, In k idxs /\ forall b d c, ~ class_of x k b d c) ->
  exists err, get_coordinates_d sum_ dot_ ext x perc idxs f sr check = (x, Raise err).
Proof.
  intros sum_ dot_ x n N ext perc idxs f sr check C [->|(k & Hk & Hn)]; [eexists; reflexivity|].
  unfold get_coordinates_d.
  destruct (map_res (fun k => get_representative_cocycle (t_em x) k 1) idxs) as [reps|err] eqn:Er; [|exists err; reflexivity].
  exfalso. apply In_nth_error in Hk; destruct Hk as (i & Hi). destruct (map_res_nth _ _ _ _ _ Er Hi) as ([[b d] c] & _ & Ec).
  exact (Hn b d c (proj2 (em_class1 _ _ _ _ _) Ec)).
Qed.
Print Assumptions C98_invalid_selection.

(** The stored matrices are those of the last call that returned with several classes: a call that
    raises or that selects one class keeps them. *)
Theorem C98_stored_matrices :
  forall sum_ dot_ ext x perc idxs f sr check,
  let out := get_coordinates_d sum_ dot_ ext x perc idxs f sr check in
  ((exists err, snd out = Raise err) \/ (length idxs <= 1)%nat) ->
  t_original_gram (fst out) = t_original_gram x /\ t_gram (fst out) = t_gram x /\ t_change_basis (fst out) = t_change_basis x.
Proof.
  intros sum_ dot_ ext x perc idxs f sr check out H. unfold out in *. clear out. unfold get_coordinates_d in *.
  destruct (map_res (fun k => get_representative_cocycle (t_em x) k 1) idxs) as [reps|err] eqn:Er; [|repeat split].
  destruct (np_max _) as [b|]; [|repeat split]. destruct (np_min _) as [d|]; [|repeat split]. destruct (Rleb d b); [repeat split|].
  destruct (for_in _ _ _) as [e1|]; [|repeat split]. destruct (cover_radius_d _ _ _ _ _) as [e2 [rt|err]]; cbn [bind] in *; [|repeat split].
  destruct (map_res (fun k => get_representative_cocycle e2 k 1) idxs) as [lifted|err] eqn:El; cbn [bind] in *; [|repeat split].
  destruct (coordinates_d _ _ _ _ _ _ _ _ _ _) as [[coords [[[g0 g1] cb]|]]|err] eqn:Ec; try (repeat split; fail).
  exfalso. destruct H as [(err & H)|H]; [discriminate H|].
  assert (L : (length (map snd lifted) <= 1)%nat) by (rewrite map_length, (map_res_length _ _ _ El); exact H).
  apply coordinates_d_inv in Ec. destruct Ec as (M0 & vecs & etas & W & hf & A & _ & _ & _ & _ & _ & _ & One & _). destruct (One L) as [_ E]. discriminate E.
Qed.
Print Assumptions C98_stored_matrices.

Lemma default_positive perc b d (sr : bool) : perc = 1 / 2 \/ perc = dbl (9 / 10) -> double b -> double d -> 0 <= b -> bpow radix2 (-1000) <= d ->
  0 < snd (get_cover_radius_d perc b d sr).
Proof.
  intros Hp Db Dd Hb Hd.
  assert (Hd' : bpow radix2 (-1020) <= d) by (eapply Rle_trans; [apply (bpow_le radix2 _ (-1000)); lia|exact Hd]).
  assert (P5 : 1 / 2 <= perc <= 1) by (destruct Hp as [-> | ->]; [lra|rewrite nine_tenths; unfold P9; pow2; lra]).
  assert (Dh : double (d / 2)) by (apply double_half; [exact Dd|eapply Rle_trans; [apply (bpow_le radix2 _ (-1020)); lia|exact Hd']]).
  apply Rlt_le_trans with (d / 2); [pose proof (bpow_gt_0 radix2 (-1020)); lra|].
  apply dbl_ge_double; [exact Dh|].
  assert (0 <= dbl (dbl (1 - perc) * (if sr then dbl (2 * b) else b))).
  { apply dbl_ge_0, Rmult_le_pos; [apply dbl_ge_0; lra|]. destruct sr; [apply dbl_ge_0; lra|exact Hb]. }
  assert (d / 2 <= dbl (perc * d)) by (apply dbl_ge_double; [exact Dh|pose proof (bpow_gt_0 radix2 (-1020)); nra]). lra.
Qed.

(** Otherwise, let [birth] be the largest birth and [death] the smallest death of the selection.  If the
    standard range is empty the call raises; if not, the stored threshold is the point of the standard
    range chosen by [perc] up to rounding, the stored radius is half of it, and with the default
    percentages no class dies before the threshold. *)
Theorem C98_common_threshold :
  forall sum_ dot_ x n N ext perc idxs f (sr check : bool),
  consistent x n N -> idxs <> [] -> Forall (fun k => exists b d c, class_of x k b d c) idxs ->
  (forall k b d c, In k idxs -> class_of x k b d c -> double b /\ double d /\ 0 <= b /\ bpow radix2 (-1000) <= d) ->
  (forall k1 k2 b1 d1 c1 b2 d2 c2, In k1 idxs -> In k2 idxs -> class_of x k1 b1 d1 c1 -> class_of x k2 b2 d2 c2 -> b1 < d2) ->
  double perc -> 0 <= perc <= 1 ->
  let out := get_coordinates_d sum_ dot_ ext x perc idxs f sr check in
  exists birth death,
    (exists k d c, In k idxs /\ class_of x k birth d c) /\ (exists k b c, In k idxs /\ class_of x k b death c) /\
    (forall k b d c, In k idxs -> class_of x k b d c -> b <= birth /\ death <= d) /\
    let start := if sr then 2 * birth else birth in
    (death < start -> snd out = Raise ClassTooShort /\ em_rips_threshold (t_em (fst out)) = em_rips_threshold (t_em x) /\ em_r_cover (t_em (fst out)) = em_r_cover (t_em x)) /\
    (start <= death -> exists t r, em_rips_threshold (t_em (fst out)) = Some t /\ em_r_cover (t_em (fst out)) = Some r /\
       Rabs (t - ((1 - perc) * start + perc * death)) <= bpow radix2 (-51) * death + bpow radix2 (-1073) /\
       (bpow radix2 (-1021) <= t -> r = t / 2) /\
       (perc = 1 / 2 \/ perc = dbl (9 / 10) -> 0 < t <= death)).
Proof.
  intros sum_ dot_ x n N ext perc idxs f sr check C Nn Fc Db Ov Dp Hp out.
  destruct (classes_reps x idxs Fc) as (reps & Er & Fr).
  destruct (co_classes _ _ _ C) as (dgm & cs & E1 & E2 & L & _).
  destruct (call_front_d sum_ dot_ ext x perc idxs f sr check reps dgm cs E1 E2 L Er Nn)
    as (b & d & B1 & B2 & D1 & D2 & _ & G).
  destruct (in_reps_birth x idxs reps b Fr B1) as (k1 & d1 & c1 & I1 & C1).
  destruct (in_reps_death x idxs reps d Fr D1) as (k2 & b2 & c2 & I2 & C2).
  pose proof (Ov k1 k2 _ _ _ _ _ _ I1 I2 C1 C2) as Hlt.
  destruct (Db _ _ _ _ I1 C1) as (Db1 & _ & Hb & _). destruct (Db _ _ _ _ I2 C2) as (_ & Dd & _ & Hd).
  destruct (G Hlt) as (store & cs' & _ & _ & _ & _ & G1 & G2). clear G. rewrite (start_exact b sr Db1) in G1, G2.
  exists b, d. split; [eauto|]. split; [eauto|]. split.
  { intros k b0 d0 c0 Hk Hc. destruct (class_in_reps x idxs reps k _ _ _ Fr Hk Hc) as [Q1 Q2]. split; [apply B2, Q1|apply D2, Q2]. }
  intros start. split.
  - exact G1.
  - intros Hs. destruct (G2 Hs) as (T1 & T2 & _). fold out in T1, T2. cbv zeta in T1, T2. exists (snd (get_cover_radius_d perc b d sr)), (fst (get_cover_radius_d perc b d sr)).
    split; [exact T1|]. split; [exact T2|].
    pose proof (C91_threshold perc b d sr Dp Db1 Dd Hp Hb Hs) as H. pose proof (C91_default perc b d sr) as H'.
    split; [|split].
    + destruct (get_cover_radius_d perc b d sr) as [r t]. apply H.
    + destruct (get_cover_radius_d perc b d sr) as [r t]. cbn [fst snd]. intros Ht. destruct H as (_ & _ & _ & H). specialize (H Ht). lra.
    + intros HP. split; [apply default_positive; assumption|]. apply (H' HP Db1 Dd Hb Hd Hs).
Qed.
Print Assumptions C98_common_threshold.

(** ProjectiveCoords and LensCoords: the objects [x] can turn into by any sequence of calls. *)
Inductive projective_history_d (x : proj) : proj -> Prop :=
| ph_start : projective_history_d x x
| ph_projective : forall y A eigh sums perc k dim f sr m, projective_history_d x y ->
    projective_history_d x (fst (projective_get_coordinates_d A eigh sums y perc k dim f sr m))
| ph_lens : forall y A eigh sums power inverse_power perc k dim f sr m, projective_history_d x y ->
    projective_history_d x (fst (lens_get_coordinates_d A eigh sums power inverse_power y perc k dim f sr m)).

(** The same data and cocycles: only radius, threshold and variance may differ. *)
Definition same_em (e e' : em) : Prop := same_data e e' /\ em_cocycles e' = em_cocycles e.
Lemma same_em_radius e e' perc b d sr : same_em e e' ->
  same_em (fst (cover_radius_d e perc b d sr)) (fst (cover_radius_d e' perc b d sr)) /\ snd (cover_radius_d e' perc b d sr) = snd (cover_radius_d e perc b d sr).
Proof. intros ((A1 & A2 & A3 & A4 & A5 & A6 & A7) & A8). unfold cover_radius_d. destruct (Rltb d _); cbn; repeat split; assumption. Qed.
Lemma same_em_after e perc b d sr : same_em e (fst (cover_radius_d e perc b d sr)).
Proof. unfold cover_radius_d. destruct (Rltb d _); cbn; repeat split. Qed.
Lemma same_em_trans e1 e2 e3 : same_em e1 e2 -> same_em e2 e3 -> same_em e1 e3.
Proof. intros [A A'] [B B']. split; [eapply same_data_trans; eassumption|congruence]. Qed.
Lemma same_em_rep e e' k dim : same_em e e' -> get_representative_cocycle e' k dim = get_representative_cocycle e k dim.
Proof. intros ((A1 & A2 & _) & A8). unfold get_representative_cocycle. rewrite ?A1, ?A2, ?A8. reflexivity. Qed.
Lemma projective_history_same x y : projective_history_d x y -> same_em (p_em x) (p_em y).
Proof.
  induction 1 as [|y A eigh sums perc k dim f sr m H IH|y A eigh sums power inverse_power perc k dim f sr m H IH]; [repeat split| |].
  - eapply same_em_trans; [exact IH|]. unfold projective_get_coordinates_d. destruct (get_representative_cocycle _ _ _) as [[[b d] c]|err]; [|repeat split].
    pose proof (same_em_after (p_em y) perc b d sr) as Q. destruct (cover_radius_d (p_em y) perc b d sr) as [e r]. cbn [fst] in Q.
    match goal with |- context [match ?q with Ok _ => _ | Raise _ => _ end] => destruct q as [[v X]|err] end; exact Q.
  - eapply same_em_trans; [exact IH|]. unfold lens_get_coordinates_d. destruct (get_representative_cocycle _ _ _) as [[[b d] c]|err]; [|repeat split].
    pose proof (same_em_after (p_em y) perc b d sr) as Q. destruct (cover_radius_d (p_em y) perc b d sr) as [e r]. cbn [fst] in Q.
    match goal with |- context [match ?q with Ok _ => _ | Raise _ => _ end] => destruct q as [[v X]|err] end; exact Q.
Qed.
(** Calls do not influence each other: coordinates, errors and the stored variance are those of a call
    on the fresh object. *)
Theorem C98_projective_calls : forall x y, projective_history_d x y ->
  (forall A eigh sums perc k dim f sr m,
     let fresh := projective_get_coordinates_d A eigh sums x perc k dim f sr m in
     let again := projective_get_coordinates_d A eigh sums y perc k dim f sr m in
     snd again = snd fresh /\ ((exists X, snd fresh = Ok X) -> p_variance (fst again) = p_variance (fst fresh))) /\
  (forall A eigh sums power inverse_power perc k dim f sr m,
     let fresh := lens_get_coordinates_d A eigh sums power inverse_power x perc k dim f sr m in
     let again := lens_get_coordinates_d A eigh sums power inverse_power y perc k dim f sr m in
     snd again = snd fresh /\ ((exists X, snd fresh = Ok X) -> p_variance (fst again) = p_variance (fst fresh))).
Proof.
  intros x y H. apply projective_history_same in H. split.
  - intros A eigh sums perc k dim f sr m. unfold projective_get_coordinates_d. rewrite (same_em_rep _ _ k 1 H).
    destruct (get_representative_cocycle _ _ _) as [[[b d] c]|err]; [|split; [reflexivity|intros (X & E); discriminate E]].
    destruct (same_em_radius _ _ perc b d sr H) as [Q1 Q2].
    destruct (cover_radius_d (p_em x) perc b d sr) as [e r]. destruct (cover_radius_d (p_em y) perc b d sr) as [e' r']. cbn [fst snd] in Q1, Q2. subst r'.
    destruct Q1 as ((A1 & A2 & A3 & A4 & A5 & A6 & A7) & A8). cbv zeta. rewrite A4, A5.
    match goal with |- context [match ?q with Ok _ => _ | Raise _ => _ end] => destruct q as [[v X]|err] end; split; try reflexivity. intros (X & E); discriminate E.
  - intros A eigh sums power inverse_power perc k dim f sr m. unfold lens_get_coordinates_d. rewrite (same_em_rep _ _ k 1 H).
    destruct (get_representative_cocycle _ _ _) as [[[b d] c]|err]; [|split; [reflexivity|intros (X & E); discriminate E]].
    destruct (same_em_radius _ _ perc b d sr H) as [Q1 Q2].
    destruct (cover_radius_d (p_em x) perc b d sr) as [e r]. destruct (cover_radius_d (p_em y) perc b d sr) as [e' r']. cbn [fst snd] in Q1, Q2. subst r'.
    destruct Q1 as ((A1 & A2 & A3 & A4 & A5 & A6 & A7) & A8). cbv zeta. rewrite A4, A5.
    match goal with |- context [match ?q with Ok _ => _ | Raise _ => _ end] => destruct q as [[v X]|err] end; split; try reflexivity. intros (X & E); discriminate E.
Qed.
Print Assumptions C98_projective_calls.

(** ComplexProjectiveCoords. *)
Inductive complex_history_d (x : cproj) : cproj -> Prop :=
| ch_start : complex_history_d x x
| ch_call : forall y sum_ cexp AA ext eigh globals perc k dim f sr check m, complex_history_d x y ->
    complex_history_d x (fst (complexprojective_get_coordinates_d sum_ cexp AA ext eigh globals y perc k dim f sr check m)).
Lemma same_data_radius e e' perc b d sr : same_data e e' ->
  same_data (fst (cover_radius_d e perc b d sr)) (fst (cover_radius_d e' perc b d sr)) /\ snd (cover_radius_d e' perc b d sr) = snd (cover_radius_d e perc b d sr).
Proof. intros (A1 & A2 & A3 & A4 & A5 & A6 & A7). unfold cover_radius_d. destruct (Rltb d _); cbn; repeat split; assumption. Qed.
(** ComplexProjectiveCoords overwrites the class it uses by its integer lift. *)
Lemma radius_lifted_d e e' perc b d sr : em_lifted e e' -> em_lifted e (fst (cover_radius_d e' perc b d sr)).
Proof. intros [A S]. unfold cover_radius_d. destruct (Rltb d _); cbn; (split; [exact A|exact S]). Qed.
Lemma complex_keeps_d sum_ cexp AA ext eigh globals x y perc k dim f sr check m : (2 <= em_prime (cp_em x))%Z -> field_store (cp_em x) ->
  em_lifted (cp_em x) (cp_em y) -> cp_table y = cp_table x -> (forall deg, deg <> 2%nat -> nth_error (em_cocycles (cp_em y)) deg = nth_error (em_cocycles (cp_em x)) deg) ->
  let y' := fst (complexprojective_get_coordinates_d sum_ cexp AA ext eigh globals y perc k dim f sr check m) in
  em_lifted (cp_em x) (cp_em y') /\ cp_table y' = cp_table x /\ (forall deg, deg <> 2%nat -> nth_error (em_cocycles (cp_em y')) deg = nth_error (em_cocycles (cp_em x)) deg).
Proof.
  intros Hp HF A T O. unfold complexprojective_get_coordinates_d.
  destruct (rep_lifted (cp_em x) (cp_em y) k 2 A) as [(b & d & c & c' & E1 & E2 & Q & cs & I1 & I2)|(err & E1 & E2)]; rewrite E2; [|split; [exact A|split; [exact T|exact O]]].
  pose proof (radius_lifted_d _ _ perc b d sr A) as A1.
  assert (O1 : em_cocycles (fst (cover_radius_d (cp_em y) perc b d sr)) = em_cocycles (cp_em y)) by (unfold cover_radius_d; destruct (Rltb d _); reflexivity).
  destruct (cover_radius_d (cp_em y) perc b d sr) as [e1 rt]. cbn [fst] in A1, O1. cbv zeta.
  assert (G1 : forall v, let y' := mkCProj e1 (cp_table y) v in em_lifted (cp_em x) (cp_em y') /\ cp_table y' = cp_table x /\ (forall deg, deg <> 2%nat -> nth_error (em_cocycles (cp_em y')) deg = nth_error (em_cocycles (cp_em x)) deg)).
  { intros v. cbn. rewrite O1. split; [exact A1|split; [exact T|exact O]]. }
  destruct rt as [[r t]|err]; [|apply G1]. destruct (get_covering_partition_d sum_ (em_dist_land_data e1) r f) as [varphi ball]. destruct (make_delta1 _ _ _ _ _) as [delta1|err]; [|apply G1].
  destruct (lift_lifted (cp_em x) e1 k 2 b d c Hp HF A1 E1) as (e2 & E3 & A2 & _). rewrite E3.
  assert (G2 : forall v, let y' := mkCProj e2 (cp_table y) v in em_lifted (cp_em x) (cp_em y') /\ cp_table y' = cp_table x /\ (forall deg, deg <> 2%nat -> nth_error (em_cocycles (cp_em y')) deg = nth_error (em_cocycles (cp_em x)) deg)).
  { intros v. cbn. split; [exact A2|]. split; [exact T|]. intros deg Hd. rewrite (lift_other _ _ _ _ E3 eq_refl deg Hd), O1. apply O, Hd. }
  destruct (complex_coordinates_d _ _ _ _ _ _ _ _ _ _ _ _ _ _ _ _ _) as [[v X]|err]; apply G2.
Qed.

(** ComplexProjectiveCoords: the same; a call may replace the stored class by its integer lift, which
    later calls do not notice. *)
Theorem C98_complex_projective_calls : forall x y, (2 <= em_prime (cp_em x))%Z -> field_store (cp_em x) -> complex_history_d x y ->
  (forall deg k birth death c', em_class (cp_em y) deg k birth death c' ->
     exists c, em_class (cp_em x) deg k birth death c /\ (c' = c \/ deg = 2%nat /\ integer_lift (em_prime (cp_em x)) c c')) /\
  forall sum_ cexp AA ext eigh globals perc k dim f sr check m,
  let fresh := complexprojective_get_coordinates_d sum_ cexp AA ext eigh globals x perc k dim f sr check m in
  let again := complexprojective_get_coordinates_d sum_ cexp AA ext eigh globals y perc k dim f sr check m in
  snd again = snd fresh /\ ((exists X, snd fresh = Ok X) -> cp_variance (fst again) = cp_variance (fst fresh)).
Proof.
  intros x y Hp HF H.
  assert (S : em_lifted (cp_em x) (cp_em y) /\ cp_table y = cp_table x /\ (forall deg, deg <> 2%nat -> nth_error (em_cocycles (cp_em y)) deg = nth_error (em_cocycles (cp_em x)) deg)).
  { induction H as [|y sum_ cexp AA ext eigh globals perc k dim f sr check m H (I1 & I2 & I3)]; [split; [apply em_lifted_refl|split; reflexivity]|]. apply complex_keeps_d; assumption. }
  destruct S as (A & T & O). split.
  - intros deg k b d c' Hc. assert (Hc0 := Hc). apply em_class_ok in Hc. destruct (rep_lifted (cp_em x) (cp_em y) k (Z.of_nat deg) A) as [(b0 & d0 & c & c0 & E1 & E2 & Q & _)|(err & E1 & E2)]; [|congruence].
    rewrite E2 in Hc. injection Hc as -> -> ->. exists c. assert (Hx : em_class (cp_em x) deg k b d c) by (apply em_class_ok; exact E1). split; [exact Hx|].
    destruct (Nat.eq_dec deg 2) as [-> |Hd]; [destruct Q as [Q|Q]; [left; exact Q|right; split; [reflexivity|apply integer_lift_ok; exact Q]]|left].
    destruct Hc0 as (z & dgm & cs & -> & D1 & D2 & D3 & D4). assert (Hy : em_class (cp_em x) deg (PyInt z) b d c').
    { exists z, dgm, cs. destruct A as ((_ & A2 & _) & _). rewrite A2 in D1. rewrite (O deg Hd) in D2. repeat split; assumption. }
    apply em_class_ok in Hy. congruence.
  - intros sum_ cexp AA ext eigh globals perc k dim f sr check m. unfold complexprojective_get_coordinates_d.
    destruct (rep_lifted (cp_em x) (cp_em y) k 2 A) as [(b & d & c & c' & E1 & E2 & Q & cs & I1 & I2)|(err & E1 & E2)]; rewrite E1, E2; [|split; [reflexivity|intros (X & E); discriminate E]].
    assert (FC : Forall (fun row => (0 <= snd row < em_prime (cp_em x))%Z) (c_rows c)) by (apply Forall_forall; intros row Hr; apply (HF cs c row I1 I2 Hr)).
    pose proof (radius_lifted_d _ _ perc b d sr A) as A1. pose proof (radius_lifted_d _ _ perc b d sr (em_lifted_refl (cp_em x))) as A0.
    destruct (same_data_radius _ _ perc b d sr (proj1 A)) as [Q1 Q2].
    destruct (cover_radius_d (cp_em x) perc b d sr) as [e1 rt]. destruct (cover_radius_d (cp_em y) perc b d sr) as [e1' rt']. cbn [fst snd] in *. subst rt'. cbv zeta.
    destruct rt as [[r t]|err]; [|split; [reflexivity|intros (X & E); discriminate E]].
    pose proof Q1 as (B1 & B2 & B3 & B4 & B5 & B6 & B7). rewrite B5, B7, T. cbv zeta.
    destruct (make_delta1 _ _ _ _ _) as [delta1|err]; [|split; [reflexivity|intros (X & E); discriminate E]].
    destruct (lift_lifted (cp_em x) e1 k 2 b d c Hp HF A0 E1) as (e2 & E3 & A2 & S2 & _). destruct (lift_lifted (cp_em x) e1' k 2 b d c Hp HF A1 E1) as (e2' & E3' & A2' & S2' & _). rewrite E3, E3'.
    assert (L : lift_to_integer_cocycle (em_prime e2') c' = lift_to_integer_cocycle (em_prime e2) c).
    { destruct A2 as ((-> & _) & _). destruct A2' as ((-> & _) & _). apply lift_maybe; assumption. }
    rewrite L. destruct A2 as ((C1 & C2 & C3 & C4 & C5 & C6 & C7) & _). destruct A2' as ((D1 & D2 & D3 & D4 & D5 & D6 & D7) & _).
    unfold complex_coordinates_d. rewrite C1, C4, C7, D1, D4, D7.
    destruct (get_covering_partition_d sum_ (em_dist_land_data e1) r f) as [varphi ball_indx]. match goal with |- context [match ?q with Ok _ => _ | Raise _ => _ end] => destruct q as [[v X]|err] end; split; try reflexivity. intros (X & E); discriminate E.
Qed.
Print Assumptions C98_complex_projective_calls.


(** ** Instances: two loops, after a call on one of them. *)
Example C98_case :
  let y := fst (get_coordinates_d running_sum running_dot rounded_ext theta (1 / 2) [PyInt 0] pu_linear_d false true) in
  consistent theta 5 5 /\ field_valued theta /\ history_d theta y /\
  Forall (fun k => exists b d c, class_of theta k b d c) [PyInt 0; PyInt 1] /\
  (forall k b d c, In k [PyInt 0; PyInt 1] -> class_of theta k b d c -> double b /\ double d /\ 0 <= b /\ bpow radix2 (-1000) <= d) /\
  (forall k1 k2 b1 d1 c1 b2 d2 c2, In k1 [PyInt 0; PyInt 1] -> In k2 [PyInt 0; PyInt 1] -> class_of theta k1 b1 d1 c1 -> class_of theta k2 b2 d2 c2 -> b1 < d2) /\
  (exists c, class_of y (PyInt 0) 1 2 c /\ c <> loop1) /\
  (exists x' rows, get_coordinates_d running_sum running_dot rounded_ext theta (1 / 2) [PyInt 0; PyInt 1] pu_linear_d false true = (x', Ok rows) /\
     snd (get_coordinates_d running_sum running_dot rounded_ext y (1 / 2) [PyInt 0; PyInt 1] pu_linear_d false true) = Ok rows).
Proof.
  intros y.
  assert (One : forall k birth death c, In k [PyInt 0; PyInt 1] -> class_of theta k birth death c -> birth = 1 /\ death = 2).
  { intros k birth death c [<-|[<-|[]]] H; apply em_class1 in H; cbv in H; injection H as <- <- <-; repeat split. }
  assert (Hy : history_d theta y) by (apply hd_call, hd_start).
  split; [apply theta_consistent|]. split; [apply theta_field|]. split; [exact Hy|]. split; [|split; [|split; [|split]]].
  - repeat constructor; do 3 eexists; apply em_class1; reflexivity.
  - intros k b d c Hk H. destruct (One _ _ _ _ Hk H) as (-> & ->). split; [apply double_small; cbn; lia|]. split; [apply double_small; cbn; lia|]. split; [lra|]. eapply Rle_trans; [apply (bpow_le radix2 _ 0); lia|]. cbn. lra.
  - intros k1 k2 b1 d1 c1 b2 d2 c2 H1 H2 H3 H4. destruct (One _ _ _ _ H1 H3) as (-> & _). destruct (One _ _ _ _ H2 H4) as (_ & ->). lra.
  - destruct (classes_reps theta [PyInt 0] ltac:(repeat constructor; do 3 eexists; apply em_class1; reflexivity)) as (reps & Er & Fr).
    destruct (call_front_d running_sum running_dot rounded_ext theta (1 / 2) [PyInt 0] pu_linear_d false true reps [(1, 2); (1, 2)] [loop1; loop2] eq_refl eq_refl eq_refl Er ltac:(discriminate)) as (b & d & B1 & _ & D1 & _ & _ & G).
    assert (reps = [(1, 2, loop1)]) as -> by (cbv in Er; injection Er as <-; reflexivity). destruct B1 as [<-|[]]. destruct D1 as [<-|[]]. cbn [fst snd] in G.
    destruct (G ltac:(lra)) as (store & cs' & N1 & L1 & H1 & ES & _). fold y in ES.
    destruct (get_steps_d running_sum running_dot rounded_ext theta (1 / 2) [PyInt 0] pu_linear_d false true [(1, 2); (1, 2)] [loop1; loop2] eq_refl eq_refl eq_refl) as [(SD & _) _]. fold y in SD.
    pose proof (H1 0%nat loop1 eq_refl) as H2. cbn [length] in H2. change (times 2 [PyInt 0] 0) with 1%nat in H2.
    exists (lift_to_integer_cocycle 41 loop1). split.
    + apply em_class1. rewrite (rep_ok _ [(1, 2); (1, 2)] cs' (PyInt 0)).
      * rewrite L1. cbn. rewrite (nth_error_nth _ _ _ H2). reflexivity.
      * destruct SD as (_ & -> & _). reflexivity.
      * rewrite ES. exact N1.
      * rewrite L1. reflexivity.
    + discriminate.
  - destruct C92_several_classes_case as (x' & rows & E & _). exists x', rows. split; [exact E|].
    destruct (C98_calls_are_independent running_sum running_dot theta 5 5 y rounded_ext (1 / 2) [PyInt 0; PyInt 1] pu_linear_d false true theta_consistent theta_field Hy) as (Q & _).
    rewrite Q, E. reflexivity.
Qed.
(** A selection of two classes, the second of which is born when the first dies. *)
Example C98_disjoint_case : forall sum_ dot_ ext perc f sr check,
  let x := mkTor (mkEM 41 [[]; [(1, 2); (2, 3)]] [0; 1; 2; 3; 4]%Z 5 theta_dm 0 theta_dm [[]; [loop1; loop2]] None None)
    (combinatorial_number_system_table 5 2) None None None in
  get_coordinates_d sum_ dot_ ext x perc [PyInt 0; PyInt 1] f sr check = (x, Raise SupportsDisjoint).
Proof.
  intros sum_ dot_ ext perc f sr check x. apply (C98_disjoint_supports sum_ dot_ x 5 5 ext perc [PyInt 0; PyInt 1] f sr check (PyInt 0) 1 2 loop1 (PyInt 1) 2 3 loop2).
  - destruct theta_consistent as [P1 P2 P3 P4 P5 P6 P8 P7]. constructor; try assumption. destruct P7 as (dgm & cs & Q1 & Q2 & Q3 & Q4). injection Q2 as <-. exists [(1, 2); (2, 3)], [loop1; loop2]. repeat split; assumption.
  - repeat constructor; do 3 eexists; apply em_class1; reflexivity.
  - left; reflexivity.
  - apply em_class1; reflexivity.
  - right; left; reflexivity.
  - apply em_class1; reflexivity.
  - lra.
Qed.
(** ** Attributes, also after a call that raises *)
Definition chosen_d (perc : R) (start death t r : R) : Prop :=
  Rabs (t - ((1 - perc) * start + perc * death)) <= bpow radix2 (-51) * death + bpow radix2 (-1073) /\
  (bpow radix2 (-1021) <= t -> r = t / 2).
Lemma attributes_d {V A} e (v : V) deg k perc sr e' v' (result : res A) :
  double perc -> 0 <= perc <= 1 -> (forall b d c, em_class e deg k b d c -> double b /\ double d /\ 0 <= b) ->
  match get_representative_cocycle e k (Z.of_nat deg) with
  | Raise err => e' = e /\ result = Raise err
  | Ok (birth, death, _) =>
      (forall err, snd (cover_radius_d e perc birth death sr) = Raise err -> e' = e /\ result = Raise err) /\
      em_rips_threshold e' = em_rips_threshold (fst (cover_radius_d e perc birth death sr)) /\ em_r_cover e' = em_r_cover (fst (cover_radius_d e perc birth death sr))
  end -> ((exists err, result = Raise err) -> v' = v) ->
  attributes_after (chosen_d perc) deg e v k sr e' v' result.
Proof.
  intros Dp Hp Db H Hv. split; [|split; [|exact Hv]].
  - intros Hn. destruct (get_representative_cocycle e k (Z.of_nat deg)) as [[[b d] c]|err] eqn:E; [exfalso; apply (Hn b d c), em_class_ok, E|].
    destruct H as [-> ->]. split; [exists err; reflexivity|reflexivity].
  - intros b d c Hc start. destruct (Db b d c Hc) as (Db1 & Dd & Hb). apply em_class_ok in Hc. rewrite Hc in H. destruct H as (H1 & H2 & H3). unfold cover_radius_d in *.
    rewrite (start_exact b sr Db1) in H1, H2, H3. fold start in H1, H2, H3. split; intros Hs.
    + rewrite (proj2 (Rltb_true d start) Hs) in H1. destruct (H1 ClassTooShort eq_refl) as [-> ->]. split; reflexivity.
    + rewrite (proj2 (Rltb_false d start) ltac:(lra)) in H2, H3. cbn [fst em_rips_threshold em_r_cover] in H2, H3. do 2 eexists. split; [exact H2|]. split; [exact H3|].
      pose proof (C91_threshold perc b d sr Dp Db1 Dd Hp Hb Hs) as T. destruct (get_cover_radius_d perc b d sr) as [r t]. cbn [fst snd]. destruct T as (T1 & T4). split; [exact T1|].
      intros Ht. destruct T4 as (_ & _ & T4). specialize (T4 Ht). lra.
Qed.

(** Threshold, radius and variance after every call of ProjectiveCoords, LensCoords and
    ComplexProjectiveCoords, also one that raises; an invalid index and an empty range change nothing. *)
Theorem C98_attributes : forall perc k dim f sr m, double perc -> 0 <= perc <= 1 ->
  (forall x A eigh sums, (forall b d c, em_class (p_em x) 1 k b d c -> double b /\ double d /\ 0 <= b) ->
     let out := projective_get_coordinates_d A eigh sums x perc k dim f sr m in
     attributes_after (chosen_d perc) 1 (p_em x) (p_variance x) k sr (p_em (fst out)) (p_variance (fst out)) (snd out)) /\
  (forall x A eigh sums power inverse_power, (forall b d c, em_class (p_em x) 1 k b d c -> double b /\ double d /\ 0 <= b) ->
     let out := lens_get_coordinates_d A eigh sums power inverse_power x perc k dim f sr m in
     attributes_after (chosen_d perc) 1 (p_em x) (p_variance x) k sr (p_em (fst out)) (p_variance (fst out)) (snd out)) /\
  (forall x sum_ cexp AA ext eigh globals check, (forall b d c, em_class (cp_em x) 2 k b d c -> double b /\ double d /\ 0 <= b) ->
     let out := complexprojective_get_coordinates_d sum_ cexp AA ext eigh globals x perc k dim f sr check m in
     attributes_after (chosen_d perc) 2 (cp_em x) (cp_variance x) k sr (cp_em (fst out)) (cp_variance (fst out)) (snd out)).
Proof.
  intros perc k dim f sr m Dp Hp. split; [|split].
  - intros x A eigh sums Db out. apply attributes_d; try assumption.
    + unfold out, projective_get_coordinates_d. change (Z.of_nat 1) with 1%Z. destruct (get_representative_cocycle _ _ _) as [[[b d] c]|err]; [|split; reflexivity].
      unfold cover_radius_d. destruct (Rltb d _); cbv zeta; cbn [bind fst snd].
      * split; [intros err E; injection E as <-; split; reflexivity|split; reflexivity].
      * split; [intros err E; discriminate E|]. match goal with |- context [match ?q with Ok _ => _ | Raise _ => _ end] => destruct q as [[v X]|err] end; split; reflexivity.
    + unfold out, projective_get_coordinates_d. destruct (get_representative_cocycle _ _ _) as [[[b d] c]|err]; [|reflexivity].
      destruct (cover_radius_d _ _ _ _ _) as [e r]. match goal with |- context [match ?q with Ok _ => _ | Raise _ => _ end] => destruct q as [[v X]|err] end; [intros (err & E); discriminate E|reflexivity].
  - intros x A eigh sums power inverse_power Db out. apply attributes_d; try assumption.
    + unfold out, lens_get_coordinates_d. change (Z.of_nat 1) with 1%Z. destruct (get_representative_cocycle _ _ _) as [[[b d] c]|err]; [|split; reflexivity].
      unfold cover_radius_d. destruct (Rltb d _); cbv zeta; cbn [bind fst snd].
      * split; [intros err E; injection E as <-; split; reflexivity|split; reflexivity].
      * split; [intros err E; discriminate E|]. match goal with |- context [match ?q with Ok _ => _ | Raise _ => _ end] => destruct q as [[v X]|err] end; split; reflexivity.
    + unfold out, lens_get_coordinates_d. destruct (get_representative_cocycle _ _ _) as [[[b d] c]|err]; [|reflexivity].
      destruct (cover_radius_d _ _ _ _ _) as [e r]. match goal with |- context [match ?q with Ok _ => _ | Raise _ => _ end] => destruct q as [[v X]|err] end; [intros (err & E); discriminate E|reflexivity].
  - intros x sum_ cexp AA ext eigh globals check Db out. apply attributes_d; try assumption.
    + unfold out, complexprojective_get_coordinates_d. change (Z.of_nat 2) with 2%Z. destruct (get_representative_cocycle _ _ _) as [[[b d] c]|err]; [|split; reflexivity].
      unfold cover_radius_d. destruct (Rltb d _); cbv zeta; cbn [bind fst snd].
      * split; [intros err E; injection E as <-; split; reflexivity|split; reflexivity].
      * split; [intros err E; discriminate E|]. destruct (get_cover_radius_d perc b d sr) as [r t]. cbn [fst snd].
        destruct (get_covering_partition_d _ _ _ _) as [varphi ball]. destruct (make_delta1 _ _ _ _ _) as [delta1|err]; [|split; reflexivity].
        match goal with |- context [lift_stored 2 k ?e1] => destruct (lift_stored 2 k e1) as [e2|err] eqn:EL end; [|split; reflexivity].
        assert (G : em_rips_threshold e2 = Some t /\ em_r_cover e2 = Some r).
        { unfold lift_stored in EL. destruct k as [k|]; [|discriminate]. do 4 (match type of EL with bind ?q _ = _ => destruct q; [cbn [bind] in EL|discriminate] end). injection EL as <-. split; reflexivity. }
        match goal with |- context [match ?q with Ok _ => _ | Raise _ => _ end] => destruct q as [[v X]|err] end; exact G.
    + unfold out, complexprojective_get_coordinates_d. destruct (get_representative_cocycle _ _ _) as [[[b d] c]|err]; [|reflexivity].
      destruct (cover_radius_d _ _ _ _ _) as [e1 [[r t]|err]]; [|reflexivity]. cbv zeta.
      destruct (get_covering_partition_d _ _ _ _) as [varphi ball]. destruct (make_delta1 _ _ _ _ _) as [delta1|err]; [|reflexivity].
      destruct (lift_stored 2 k e1) as [e2|err]; [|reflexivity].
      match goal with |- context [match ?q with Ok _ => _ | Raise _ => _ end] => destruct q as [[v X]|err] end; [intros (err & E); discriminate E|reflexivity].
Qed.
Print Assumptions C98_attributes.

(** ProjectiveCoords and LensCoords after a call that stores a radius; the octahedron with value 2 mod 3. *)
Example C98_projective_case A eigh sums power inverse_power : let x := PropClassMap.ring 3 1 in
  let y := fst (lens_get_coordinates_d A eigh sums power inverse_power x (1 / 2) (PyInt 0) 2 pu_linear_d false Exponential) in
  projective_history_d x y /\ p_em y <> p_em x.
Proof.
  intros x y. split; [apply ph_lens, ph_start|].
  assert (E : em_class (p_em x) 1 (PyInt 0) 1 2 (ring_cocycle 1)) by (apply em_class1; reflexivity).
  unfold y, lens_get_coordinates_d. apply em_class1 in E. rewrite E. unfold cover_radius_d. rewrite (proj2 (Rltb_false 2 1) ltac:(lra)). cbv zeta.
  match goal with |- context [match ?q with Ok _ => _ | Raise _ => _ end] => destruct q as [[v X]|err] end; cbn; discriminate.
Qed.
Example C98_complex_case sum_ cexp AA ext eigh globals : let x := octa 2 in
  let y := fst (complexprojective_get_coordinates_d sum_ cexp AA ext eigh globals x (1 / 2) (PyInt 0) 1 pu_linear_d false true Exponential) in
  (2 <= em_prime (cp_em x))%Z /\ field_store (cp_em x) /\ complex_history_d x y.
Proof.
  intros x y. destruct (C99_complex_case (mkExt (fun _ => []) (fun _ _ => None) (fun _ _ => []) (fun m => Ok m) (fun _ => 0%Z) 0) (fun _ => None) []) as (H1 & H2 & _).
  split; [exact H1|]. split; [exact H2|]. apply ch_call, ch_start.
Qed.
Example C98_attributes_case A eigh sums power inverse_power dim m : let x := PropClassMap.ring 3 1 in
  let y := fst (lens_get_coordinates_d A eigh sums power inverse_power x (1 / 2) (PyInt 0) dim pu_linear_d false m) in
  exists t r, em_rips_threshold (p_em y) = Some t /\ em_r_cover (p_em y) = Some r /\ chosen_d (1 / 2) 1 2 t r.
Proof.
  intros x y. assert (Hc : em_class (p_em x) 1 (PyInt 0) 1 2 (ring_cocycle 1)) by (apply em_class1; reflexivity).
  assert (Dh : double (1 / 2)) by (replace (1 / 2) with (IZR 1 * bpow radix2 (-1)) by (pow2; lra); apply double_F; cbn; lia).
  destruct (C98_attributes (1 / 2) (PyInt 0) dim pu_linear_d false m Dh ltac:(lra)) as (_ & H & _).
  destruct (H x A eigh sums power inverse_power) as (_ & H1 & _).
  - intros b d c Hb. apply em_class1 in Hb. apply em_class1 in Hc. rewrite Hc in Hb. injection Hb as <- <- <-. split; [apply double_small; cbn; lia|]. split; [apply double_small; cbn; lia|lra].
  - exact (proj2 (H1 1 2 _ Hc) ltac:(lra)).
Qed.
