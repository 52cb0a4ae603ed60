(** RoundTorusCalls.v -- lemmas on whole calls of get_coordinates in double precision: which error,
    which threshold, what happens to the stored cocycles. *)
From Coq Require Import Reals List ZArith Lia Lra.
From Verif Require Import Base BaseProofs RealBase RealSum EMModel SpecEM EMProofs CohomologyModel SpecCohomology CohomologyProofs ToroidalModel SpecToroidal ToroidalProofs ToroidalFacts ToroidalCalls
  SpecRepair RepairModel LLLModel SpecLLL SpecRound RoundBase RoundModel RoundTorusModel RoundProofs RoundTorusProofs RoundTorusFacts.
Import ListNotations.
Local Open Scope R_scope.

(** The objects [x] can turn into by any sequence of calls in double precision, with any arguments
    and any order of summation, whether or not they raise. *)
Inductive history_d (x : tor) : tor -> Prop :=
| hd_start : history_d x x
| hd_call : forall y sum_ dot_ ext perc idxs f standard_range check, history_d x y ->
    history_d x (fst (get_coordinates_d sum_ dot_ ext y perc idxs f standard_range check)).

Lemma get_steps_d sum_ dot_ ext x perc idxs f sr check dgm cs :
  nth_error (em_dgms (t_em x)) 1 = Some dgm -> nth_error (em_cocycles (t_em x)) 1 = Some cs -> length cs = length dgm ->
  aged (t_em x) (t_em (fst (get_coordinates_d sum_ dot_ ext x perc idxs f sr check))) /\
  t_table (fst (get_coordinates_d sum_ dot_ ext x perc idxs f sr check)) = t_table x.
Proof.
  intros E1 E2 L; unfold get_coordinates_d.
  destruct (map_res _ idxs) as [reps|] eqn:Er; [|cbn [fst]; split; [apply aged_refl|reflexivity]].
  apply (reps_char _ dgm cs idxs reps E1 E2 L) in Er; destruct Er as [F _].
  destruct (np_max _) as [cd|]; [|cbn [fst]; split; [apply aged_refl|reflexivity]].
  destruct (np_min _) as [cb|]; [|cbn [fst]; split; [apply aged_refl|reflexivity]].
  destruct (Rleb cb cd); [cbn [fst]; split; [apply aged_refl|reflexivity]|].
  destruct (lift_aged _ idxs dgm cs E1 E2 F) as (store & cs' & -> & A & _).
  destruct (cover_radius_d _ perc cd cb sr) as [e2 radius] eqn:Eg.
  pose proof (radius_effect_d (set_cocycles (t_em x) store) perc cd cb sr) as [A2 _]. rewrite Eg in A2; cbn [fst] in A2.
  pose proof (aged_trans _ _ _ A A2) as A3. cbn zeta.
  destruct (bind radius _) as [[coords [[[g0 g1] cb']|]]|]; cbn [fst t_em set_em t_table]; split; try exact A3; reflexivity.
Qed.

Lemma history_aged_d x y dgm cs :
  nth_error (em_dgms (t_em x)) 1 = Some dgm -> nth_error (em_cocycles (t_em x)) 1 = Some cs -> length cs = length dgm ->
  history_d x y -> aged (t_em x) (t_em y) /\ t_table y = t_table x.
Proof.
  intros E1 E2 L H; induction H as [|y sum_ dot_ ext perc idxs f sr check H [IH1 IH2]]; [split; [apply aged_refl|reflexivity]|].
  pose proof IH1 as (S & _ & _ & A). destruct (A cs E2) as (cs' & E2' & F).
  destruct (get_steps_d sum_ dot_ ext y perc idxs f sr check dgm cs') as [G1 G2].
  - destruct S as (_ & -> & _); exact E1.
  - exact E2'.
  - rewrite <- (f2_length F); exact L.
  - split; [eapply aged_trans; eassumption|congruence].
Qed.

Lemma get_same_d sum_ dot_ ext x y perc idxs f sr check dgm cs cs' :
  nth_error (em_dgms (t_em x)) 1 = Some dgm -> nth_error (em_cocycles (t_em x)) 1 = Some cs -> length cs = length dgm ->
  same_data (t_em x) (t_em y) -> t_table y = t_table x -> nth_error (em_cocycles (t_em y)) 1 = Some cs' ->
  Forall2 (fun c c' => lift_to_integer_cocycle (em_prime (t_em x)) c = lift_to_integer_cocycle (em_prime (t_em x)) c') cs cs' ->
  let rx := get_coordinates_d sum_ dot_ ext x perc idxs f sr check in
  let ry := get_coordinates_d sum_ dot_ ext y perc idxs f sr check in
  snd ry = snd rx /\
  ((1 < length idxs)%nat -> (exists coords, snd rx = Ok coords) ->
    t_original_gram (fst ry) = t_original_gram (fst rx) /\ t_gram (fst ry) = t_gram (fst rx) /\
    t_change_basis (fst ry) = t_change_basis (fst rx)).
Proof.
  intros E1 E2 L S ET E2' F rx ry. subst rx ry; unfold get_coordinates_d.
  pose proof (f2_length F) as LF.
  assert (E1' : nth_error (em_dgms (t_em y)) 1 = Some dgm) by (destruct S as (_ & -> & _); exact E1).
  assert (L' : length cs' = length dgm) by congruence.
  assert (Bad : forall err, map_res (fun k => get_representative_cocycle (t_em x) k 1) idxs = Raise err ->
     map_res (fun k => get_representative_cocycle (t_em y) k 1) idxs = Raise err).
  { clear - E1 E2 L E1' E2' L' LF. induction idxs as [|k idxs IH]; intros err; cbn [map_res]; [discriminate|].
    rewrite (rep_ok _ _ _ k E1 E2 L), (rep_ok _ _ _ k E1' E2' L'). rewrite <- LF.
    destruct k as [z|]; cbn [bind]; [|auto]. destruct (class_pos _ _); cbn [bind]; [|auto].
    destruct (map_res _ idxs) as [r|err'] eqn:Er; cbn [bind]; [discriminate|].
    intros H; injection H as ->; rewrite (IH _ eq_refl); reflexivity. }
  destruct (map_res (fun k => get_representative_cocycle (t_em x) k 1) idxs) as [reps|err] eqn:Er.
  2:{ rewrite (Bad err eq_refl); cbn [fst snd]. split; [reflexivity|]. intros _ (c & H); discriminate H. }
  apply (reps_char _ dgm cs idxs reps E1 E2 L) in Er; destruct Er as [Fp ->].
  assert (Fp' : Forall (fun k => class_pos (length cs') k <> None) idxs) by (rewrite <- LF; exact Fp).
  pose proof (proj2 (reps_char (t_em y) dgm cs' idxs _ E1' E2' L') (conj Fp' eq_refl)) as Ey.
  rewrite Ey; clear Ey Bad. rewrite !map_map; cbn [fst snd]. rewrite <- LF.
  destruct (np_max _) as [cd|]; [|cbn [fst snd]; split; [reflexivity|intros _ (c & H); discriminate H]].
  destruct (np_min _) as [cb|]; [|cbn [fst snd]; split; [reflexivity|intros _ (c & H); discriminate H]].
  destruct (Rleb cb cd); [cbn [fst snd]; split; [reflexivity|intros _ (c & H); discriminate H]|].
  destruct (lift_aged _ idxs dgm cs E1 E2 Fp) as (store & c1 & -> & A1 & N1 & L1 & H1).
  destruct (lift_aged _ idxs dgm cs' E1' E2' Fp') as (store' & c1' & -> & A1' & N1' & L1' & H1').
  pose proof (radius_effect_d (set_cocycles (t_em x) store) perc cd cb sr) as [A2 K2].
  pose proof (radius_effect_d (set_cocycles (t_em y) store') perc cd cb sr) as [A2' K2'].
  assert (RS : snd (cover_radius_d (set_cocycles (t_em y) store') perc cd cb sr) =
               snd (cover_radius_d (set_cocycles (t_em x) store) perc cd cb sr)).
  { unfold cover_radius_d; destruct (Rltb cb _); reflexivity. }
  destruct (cover_radius_d (set_cocycles (t_em x) store) perc cd cb sr) as [e2 radius].
  destruct (cover_radius_d (set_cocycles (t_em y) store') perc cd cb sr) as [e2' radius'].
  cbn [fst snd] in *; subst radius'.
  assert (SD : same_data e2 e2').
  { pose proof (proj1 A1) as Q1; pose proof (proj1 A1') as Q1'; pose proof (proj1 A2) as Q2; pose proof (proj1 A2') as Q2'.
    clear - Q1 Q1' Q2 Q2' S.
    pose proof (same_data_trans _ _ _ (same_data_trans _ _ _ S Q1') Q2') as P1.
    pose proof (same_data_trans _ _ _ Q1 Q2) as P2.
    destruct P1 as (B1 & B2 & B3 & B4 & B5 & B6 & B7); destruct P2 as (C1 & C2 & C3 & C4 & C5 & C6 & C7).
    repeat split; congruence. }
  assert (EL : map_res (fun k => get_representative_cocycle e2' k 1) idxs =
               map_res (fun k => get_representative_cocycle e2 k 1) idxs).
  { assert (D2 : nth_error (em_dgms e2) 1 = Some dgm) by (destruct A2 as ((_ & -> & _) & _); exact E1).
    assert (D2' : nth_error (em_dgms e2') 1 = Some dgm) by (destruct A2' as ((_ & -> & _) & _); exact E1').
    assert (M2 : nth_error (em_cocycles e2) 1 = Some c1) by (rewrite K2; exact N1).
    assert (M2' : nth_error (em_cocycles e2') 1 = Some c1') by (rewrite K2'; exact N1').
    assert (Fp1 : Forall (fun k => class_pos (length c1) k <> None) idxs) by (rewrite L1; exact Fp).
    rewrite (proj2 (reps_char e2 dgm c1 idxs _ D2 M2 ltac:(congruence)) (conj Fp1 eq_refl)).
    apply (reps_char e2' dgm c1' idxs _ D2' M2' ltac:(congruence)).
    split; [rewrite L1', <- LF; exact Fp|]. rewrite L1, L1', <- LF.
    apply map_ext_in; intros k Hk; f_equal. rewrite Forall_forall in Fp; specialize (Fp k Hk); unfold posn.
    destruct (class_pos (length cs) k) as [i|] eqn:Ep; [|congruence].
    assert (Hi : (i < length cs)%nat) by (destruct k; cbn in Ep; [exact (pos_lt _ _ _ Ep)|discriminate]).
    destruct (nth_error cs i) as [c|] eqn:Ec; [|apply nth_error_None in Ec; lia].
    destruct (nth_error cs' i) as [c'|] eqn:Ec'; [|apply nth_error_None in Ec'; lia].
    rewrite (nth_error_nth _ _ _ (H1 i c Ec)), (nth_error_nth _ _ _ (H1' i c' Ec')).
    assert (EP : em_prime (t_em y) = em_prime (t_em x)) by (destruct S as (-> & _); reflexivity).
    rewrite EP, <- LF.
    assert (Fi : lift_to_integer_cocycle (em_prime (t_em x)) c = lift_to_integer_cocycle (em_prime (t_em x)) c').
    { clear - F Ec Ec'. revert i Ec Ec'; induction F as [|a b la lb Hab F IH]; intros [|i] H1 H2; try discriminate.
      - cbn in H1, H2; congruence.
      - exact (IH i H1 H2). }
    pose proof (times_pos _ idxs k i Hk Ep) as T1. destruct (times (length cs) idxs i) as [|m]; [lia|].
    rewrite !iter_lift_S, Fi; reflexivity. }
  cbn zeta. rewrite EL, ET; clear EL.
  destruct radius as [rt|err]; cbn [bind]; [|split; [reflexivity|intros _ (c & H); discriminate H]].
  destruct (map_res (fun k => get_representative_cocycle e2 k 1) idxs) as [lifted|err] eqn:ELf; cbn [bind]; [|split; [reflexivity|intros _ (c & H); discriminate H]].
  rewrite (coordinates_d_ext sum_ dot_ ext e2 e2' (t_table x) (map snd lifted) (fst rt) (snd rt) f check SD).
  destruct (coordinates_d _ _ _ _ _ _ _ _ _ _) as [[coords [[[g0 g1] cbas]|]]|err] eqn:EC; cbn [fst snd t_original_gram t_gram t_change_basis].
  - split; [reflexivity|]. intros _ _; repeat split.
  - split; [reflexivity|]. intros H1i _. exfalso; revert EC; unfold coordinates_d.
    destruct (get_covering_partition_d _ _ _ _); clear - H1i ELf.
    apply map_res_length in ELf. rewrite map_length, ELf, (proj2 (Nat.ltb_lt 1 (length idxs))) by exact H1i.
    repeat (match goal with |- bind ?a _ = _ -> _ => destruct a; cbn [bind]; [|discriminate] end). discriminate.
  - split; [reflexivity|]. intros _ (c & H); discriminate H.
Qed.

Lemma call_front_d sum_ dot_ ext x perc idxs f (sr check : bool) reps dgm cs :
  nth_error (em_dgms (t_em x)) 1 = Some dgm -> nth_error (em_cocycles (t_em x)) 1 = Some cs -> length cs = length dgm ->
  map_res (fun k => get_representative_cocycle (t_em x) k 1) idxs = Ok reps -> idxs <> [] ->
  exists birth death,
    In birth (map (fun r => fst (fst r)) reps) /\ (forall y, In y (map (fun r => fst (fst r)) reps) -> y <= birth) /\
    In death (map (fun r => snd (fst r)) reps) /\ (forall y, In y (map (fun r => snd (fst r)) reps) -> death <= y) /\
    (death <= birth -> get_coordinates_d sum_ dot_ ext x perc idxs f sr check = (x, Raise SupportsDisjoint)) /\
    (birth < death -> exists store cs',
       nth_error store 1 = Some cs' /\ length cs' = length cs /\
       (forall i c, nth_error cs i = Some c ->
          nth_error cs' i = Some (Nat.iter (times (length cs) idxs i) (lift_to_integer_cocycle (em_prime (t_em x))) c)) /\
       em_cocycles (t_em (fst (get_coordinates_d sum_ dot_ ext x perc idxs f sr check))) = store /\
       let start := if sr then dbl (2 * birth) else birth in
       (death < start -> snd (get_coordinates_d sum_ dot_ ext x perc idxs f sr check) = Raise ClassTooShort /\
          em_rips_threshold (t_em (fst (get_coordinates_d sum_ dot_ ext x perc idxs f sr check))) = em_rips_threshold (t_em x) /\
          em_r_cover (t_em (fst (get_coordinates_d sum_ dot_ ext x perc idxs f sr check))) = em_r_cover (t_em x)) /\
       (start <= death ->
          let r := fst (get_cover_radius_d perc birth death sr) in let t := snd (get_cover_radius_d perc birth death sr) in
          let lifted := map (fun k => nth (posn (length cs) k) cs' no_c) idxs in
          em_rips_threshold (t_em (fst (get_coordinates_d sum_ dot_ ext x perc idxs f sr check))) = Some t /\
          em_r_cover (t_em (fst (get_coordinates_d sum_ dot_ ext x perc idxs f sr check))) = Some r /\
          snd (get_coordinates_d sum_ dot_ ext x perc idxs f sr check) =
            (r <- coordinates_d sum_ dot_ ext (t_em x) (t_table x) lifted r t f check ;; Ok (fst r)))).
Proof.
  intros E1 E2 L Er Nn.
  pose proof Er as Er0. apply (reps_char _ dgm cs idxs reps E1 E2 L) in Er; destruct Er as [F Ereps].
  destruct reps as [|rep0 reps']; [destruct idxs; [congruence|discriminate Ereps]|].
  destruct (np_max_ok (map (fun r => fst (fst r)) (rep0 :: reps')) ltac:(discriminate)) as (birth & Eb & Hb1 & Hb2).
  destruct (np_min_ok (map (fun r => snd (fst r)) (rep0 :: reps')) ltac:(discriminate)) as (death & Ed & Hd1 & Hd2).
  set (reps := rep0 :: reps') in *. exists birth, death.
  repeat match goal with |- _ /\ _ => split; [assumption|] end.
  unfold get_coordinates_d. rewrite Er0, Eb, Ed.
  split.
  { intros H. assert (El : Rleb death birth = true) by (apply Rleb_true; exact H). rewrite El; reflexivity. }
  intros Hlt. assert (El : Rleb death birth = false) by (apply Rleb_false; exact Hlt). rewrite El.
  destruct (lift_aged _ idxs dgm cs E1 E2 F) as (store & cs' & EL & A1 & N1 & L1 & H1). rewrite EL.
  exists store, cs'. repeat match goal with |- _ /\ _ => split; [assumption|] end.
  pose proof (radius_effect_d (set_cocycles (t_em x) store) perc birth death sr) as [A2 K2].
  destruct (cover_radius_d (set_cocycles (t_em x) store) perc birth death sr) as [e2 radius] eqn:Eg. cbn [fst] in A2, K2.
  split.
  { destruct (rt <- radius ;; _) as [[cc [[[g0 g1] cb]|]]|]; cbn [fst t_em set_em]; exact K2. }
  set (start := if sr then dbl (2 * birth) else birth) in *. unfold cover_radius_d in Eg. fold start in Eg. split.
  - intros Hs. rewrite (proj2 (Rltb_true _ _) Hs) in Eg. injection Eg as <- <-. repeat split.
  - intros Hs. set (r := fst (get_cover_radius_d perc birth death sr)) in *. set (t := snd (get_cover_radius_d perc birth death sr)) in *. set (lifted := map (fun k => nth (posn (length cs) k) cs' no_c) idxs) in *. rewrite (proj2 (Rltb_false _ _) Hs) in Eg. injection Eg as Ee2 <-. cbn [bind fst snd]. fold r t.
    assert (D2 : nth_error (em_dgms e2) 1 = Some dgm) by (destruct A2 as ((_ & -> & _) & _); exact E1).
    assert (M2 : nth_error (em_cocycles e2) 1 = Some cs') by (rewrite K2; exact N1).
    assert (Fp1 : Forall (fun k => class_pos (length cs') k <> None) idxs) by (rewrite L1; exact F).
    rewrite (proj2 (reps_char e2 dgm cs' idxs _ D2 M2 ltac:(congruence)) (conj Fp1 eq_refl)). cbn [bind].
    rewrite map_map; cbn [snd]. rewrite L1. fold lifted.
    assert (SD : same_data (t_em x) e2) by (eapply same_data_trans; [exact (proj1 A1)|exact (proj1 A2)]).
    rewrite (coordinates_d_ext sum_ dot_ ext (t_em x) e2 _ _ _ _ _ _ SD).
    assert (T2 : em_rips_threshold e2 = Some t /\ em_r_cover e2 = Some r) by (rewrite <- Ee2; split; reflexivity).
    destruct (coordinates_d sum_ dot_ ext (t_em x) (t_table x) lifted r t f check) as [[rows0 [[[g0 g1] ch]|]]|err]; cbn [fst snd bind t_em set_em];
      (split; [apply T2|split; [apply T2|reflexivity]]).
Qed.
