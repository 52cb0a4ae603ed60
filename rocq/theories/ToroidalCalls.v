(** ToroidalCalls.v -- lemmas on whole calls of get_coordinates: which error, which threshold,
    what happens to the stored cocycles. *)
From Coq Require Import Sorted Permutation.
From Verif Require Import Base BaseProofs CombinatorialModel SpecSimplex CombinatorialProofs
  DeltaModel SpecRips RipsProofs DeltaProofs DeltaFacts RealBase RealSum SpecRepair RepairModel RepairProofs
  EMModel SpecEM EMProofs CircleModel SpecCircle CircleProofs LLLModel SpecLLL LLLProofs
  CohomologyModel SpecCohomology CohomologyProofs PropDelta PropRepair PropCohomology PropEM PropCircle PropLLL
  ToroidalModel SpecToroidal ToroidalProofs ToroidalFacts.
Local Open Scope R_scope.

(** The first half of a call, for a selection of existing classes. *)
Lemma call_front ext x perc idxs f (sr check : bool) reps dgm cs :
  nth_error (em_dgms (t_em x)) 1 = Some dgm -> nth_error (em_cocycles (t_em x)) 1 = Some cs -> length cs = length dgm ->
  map_res (fun k => get_representative_cocycle (t_em x) k 1) idxs = Ok reps -> idxs <> [] ->
  exists birth death,
    In birth (map (fun r => fst (fst r)) reps) /\ (forall y, In y (map (fun r => fst (fst r)) reps) -> y <= birth) /\
    In death (map (fun r => snd (fst r)) reps) /\ (forall y, In y (map (fun r => snd (fst r)) reps) -> death <= y) /\
    (death <= birth -> get_coordinates ext x perc idxs f sr check = (x, Raise SupportsDisjoint)) /\
    (birth < death -> exists store cs',
       nth_error store 1 = Some cs' /\ length cs' = length cs /\
       (forall i c, nth_error cs i = Some c ->
          nth_error cs' i = Some (Nat.iter (times (length cs) idxs i) (lift_to_integer_cocycle (em_prime (t_em x))) c)) /\
       em_cocycles (t_em (fst (get_coordinates ext x perc idxs f sr check))) = store /\
       let start := if sr then 2 * birth else birth in
       (death < start -> snd (get_coordinates ext x perc idxs f sr check) = Raise ClassTooShort) /\
       (start <= death ->
          let t := (1 - perc) * start + perc * death in
          let lifted := map (fun k => nth (posn (length cs) k) cs' no_c) idxs in
          em_rips_threshold (t_em (fst (get_coordinates ext x perc idxs f sr check))) = Some t /\
          em_r_cover (t_em (fst (get_coordinates ext x perc idxs f sr check))) = Some (t / 2) /\
          snd (get_coordinates ext x perc idxs f sr check) =
            (r <- coordinates ext (t_em x) (t_table x) lifted (t / 2) t f check ;; Ok (fst r)))).
Proof.
  intros E1 E2 L Er Nn.
  pose proof Er as Er0. apply (reps_char _ dgm cs idxs reps E1 E2 L) in Er; destruct Er as [F Ereps].
  destruct reps as [|rep0 reps']; [destruct idxs; [congruence|discriminate Ereps]|].
  destruct (np_max_ok (map (fun r => fst (fst r)) (rep0 :: reps')) ltac:(discriminate)) as (birth & Eb & Hb1 & Hb2).
  destruct (np_min_ok (map (fun r => snd (fst r)) (rep0 :: reps')) ltac:(discriminate)) as (death & Ed & Hd1 & Hd2).
  set (reps := rep0 :: reps') in *. exists birth, death.
  repeat match goal with |- _ /\ _ => split; [assumption|] end.
  unfold get_coordinates. rewrite Er0, Eb, Ed.
  split.
  { intros H. assert (El : Rleb death birth = true) by (apply Rleb_true; exact H). rewrite El; reflexivity. }
  intros Hlt. assert (El : Rleb death birth = false) by (apply Rleb_false; exact Hlt). rewrite El.
  destruct (lift_aged _ idxs dgm cs E1 E2 F) as (store & cs' & EL & A1 & N1 & L1 & H1). rewrite EL.
  exists store, cs'. repeat match goal with |- _ /\ _ => split; [assumption|] end.
  pose proof (radius_effect (set_cocycles (t_em x) store) perc birth death sr) as [A2 K2].
  destruct (get_cover_radius (set_cocycles (t_em x) store) perc birth death sr) as [e2 radius] eqn:Eg. cbn [fst] in A2, K2.
  split.
  { destruct (rt <- radius ;; _) as [[cc [[[g0 g1] cb]|]]|]; cbn [fst t_em set_em]; exact K2. }
  set (start := if sr then 2 * birth else birth) in *. unfold get_cover_radius in Eg. fold start in Eg. split.
  - intros Hs. rewrite (proj2 (Rltb_true _ _) Hs) in Eg. injection Eg as <- <-. reflexivity.
  - intros Hs. set (t := (1 - perc) * start + perc * death) in *. set (lifted := map (fun k => nth (posn (length cs) k) cs' no_c) idxs) in *. rewrite (proj2 (Rltb_false _ _) Hs) in Eg. injection Eg as Ee2 <-. cbn [bind fst snd]. fold t.
    assert (D2 : nth_error (em_dgms e2) 1 = Some dgm) by (destruct A2 as ((_ & -> & _) & _); exact E1).
    assert (M2 : nth_error (em_cocycles e2) 1 = Some cs') by (rewrite K2; exact N1).
    assert (Fp1 : Forall (fun k => class_pos (length cs') k <> None) idxs) by (rewrite L1; exact F).
    rewrite (proj2 (reps_char e2 dgm cs' idxs _ D2 M2 ltac:(congruence)) (conj Fp1 eq_refl)). cbn [bind].
    rewrite map_map; cbn [snd]. rewrite L1. fold lifted.
    assert (SD : same_data (t_em x) e2) by (eapply same_data_trans; [exact (proj1 A1)|exact (proj1 A2)]).
    rewrite (coordinates_ext ext (t_em x) e2 _ _ _ _ _ _ SD).
    assert (T2 : em_rips_threshold e2 = Some t /\ em_r_cover e2 = Some (t / 2)) by (rewrite <- Ee2; split; reflexivity).
    destruct (coordinates ext (t_em x) (t_table x) lifted (t / 2) t f check) as [[rows0 [[[g0 g1] ch]|]]|err]; cbn [fst snd bind t_em set_em];
      (split; [apply T2|split; [apply T2|reflexivity]]).
Qed.

(** Classes that exist. *)
Lemma classes_reps x idxs : Forall (fun k => exists b d c, class_of x k b d c) idxs ->
  exists reps, map_res (fun k => get_representative_cocycle (t_em x) k 1) idxs = Ok reps /\
    Forall2 (fun k r => class_of x k (fst (fst r)) (snd (fst r)) (snd r)) idxs reps.
Proof.
  induction 1 as [|k l (b & d & c & H) F (reps & IH1 & IH2)]; [exists []; split; [reflexivity|constructor]|].
  exists ((b, d, c) :: reps). cbn [map_res]. pose proof (proj1 (em_class1 _ _ _ _ _) H) as H'. rewrite H', IH1; cbn [bind]. split; [reflexivity|].
  constructor; [exact H|exact IH2].
Qed.

Lemma in_reps_birth x idxs reps y : Forall2 (fun k r => class_of x k (fst (fst r)) (snd (fst r)) (snd r)) idxs reps ->
  In y (map (fun r => fst (fst r)) reps) -> exists k d c, In k idxs /\ class_of x k y d c.
Proof.
  intros F H. apply in_map_iff in H; destruct H as ([[b d] c] & <- & Hr). cbn [fst].
  apply In_nth_error in Hr; destruct Hr as (i & Hi). destruct (f2_nth2 _ _ _ _ _ F Hi) as (k & Hk & Hc).
  exists k, d, c; split; [exact (nth_error_In _ _ Hk)|exact Hc].
Qed.
Lemma in_reps_death x idxs reps y : Forall2 (fun k r => class_of x k (fst (fst r)) (snd (fst r)) (snd r)) idxs reps ->
  In y (map (fun r => snd (fst r)) reps) -> exists k b c, In k idxs /\ class_of x k b y c.
Proof.
  intros F H. apply in_map_iff in H; destruct H as ([[b d] c] & <- & Hr). cbn [fst snd].
  apply In_nth_error in Hr; destruct Hr as (i & Hi). destruct (f2_nth2 _ _ _ _ _ F Hi) as (k & Hk & Hc).
  exists k, b, c; split; [exact (nth_error_In _ _ Hk)|exact Hc].
Qed.
Lemma class_in_reps x idxs reps k b d c : Forall2 (fun k r => class_of x k (fst (fst r)) (snd (fst r)) (snd r)) idxs reps ->
  In k idxs -> class_of x k b d c -> In b (map (fun r => fst (fst r)) reps) /\ In d (map (fun r => snd (fst r)) reps).
Proof.
  intros F H Hc. apply In_nth_error in H; destruct H as (i & Hi). destruct (f2_nth _ _ _ _ _ F Hi) as (r & Hr & Hc').
  apply em_class1 in Hc, Hc'. rewrite Hc in Hc'. destruct r as [[b' d'] c']; cbn [fst snd] in *. injection Hc' as <- <- <-.
  pose proof (nth_error_In _ _ Hr) as HI.
  split; [apply (in_map (fun r => fst (fst r)) reps (b, d, c) HI)|apply (in_map (fun r => snd (fst r)) reps (b, d, c) HI)].
Qed.
