(** PropEM.v -- theorems C22-C29 and C74: EMCoords and PartUnity. *)
From Coq Require Import Permutation Sorted.
From Verif Require Import Base BaseProofs CohomologyModel SpecCohomology Argsort SignProofs ParityProofs CohomologyProofs
  EMModel SpecEM EMProofs DeltaFacts RepairProofs.

(** C22: construction succeeds; every positive dimension is a permutation of ripser's rows
    in order of non-increasing persistence, with each row's own cocycle (renamed to landmark
    positions) beside it; dimension 0 keeps ripser's order. *)
Theorem C22_sorted_and_matched :
  forall argsort ripser X n_landmarks distance_matrix prime maxdim N d r,
  (forall l, is_argsort Rle 0%R l (argsort l)) ->
  documented_input X distance_matrix N d -> (1 <= maxdim)%Z ->
  ripser (given_to_ripser X distance_matrix) distance_matrix prime maxdim n_landmarks = Ok r ->
  ripser_contract N (Z.to_nat maxdim) r ->
  exists e, em_init argsort ripser X n_landmarks distance_matrix prime maxdim = Ok e /\
    (forall i dgm cs, (1 <= i <= Z.to_nat maxdim)%nat ->
       nth_error (r_dgms r) i = Some dgm -> nth_error (r_cocycles r) i = Some cs ->
       exists p dgm' cs',
         Permutation p (seq 0 (length dgm)) /\
         nth_error (em_dgms e) i = Some dgm' /\ nth_error (em_cocycles e) i = Some cs' /\
         length dgm' = length dgm /\ length cs' = length dgm /\
         StronglySorted (fun x y => persistence y <= persistence x)%R dgm' /\
         (forall j k, nth_error p j = Some k ->
            nth_error dgm' j = nth_error dgm k /\
            exists c c', nth_error cs k = Some c /\ nth_error cs' j = Some c' /\
              renamed (r_idx_perm r) c c')) /\
    nth_error (em_dgms e) 0 = nth_error (r_dgms r) 0 /\
    (forall cs, nth_error (r_cocycles r) 0 = Some cs ->
       exists cs', nth_error (em_cocycles e) 0 = Some cs' /\ Forall2 (renamed (r_idx_perm r)) cs cs').
Proof.
  intros argsort ripser X nl dm prime maxdim N d r Ha Hin Hm Er Hc. rewrite (given_ok _ _ _ _ Hin) in Er.
  destruct (em_init_ok argsort ripser X nl dm prime maxdim N d r Ha Hin Hm Er Hc)
    as (e & dist & Ee & _ & _ & _ & _ & _ & _ & _ & _ & _ & L1 & L2 & H).
  destruct Hc as (_ & _ & _ & _ & H5 & H6 & H7 & _).
  exists e; split; [exact Ee|split; [|split]].
  - intros i dgm cs Hi E1 E2; destruct (H i dgm cs E1 E2) as [G1 (cs' & G2 & G3)].
    rewrite (proj2 (Nat.leb_le 1 i)), (proj2 (Nat.leb_le i _)) in G1, G3 by lia; cbn [andb] in G1, G3.
    fold (sorted_of argsort dgm) in G1, G3.
    pose proof (sorted_of_perm argsort Ha dgm) as P.
    pose proof (Permutation_length P) as LP; rewrite seq_length in LP.
    pose proof (perm_seq_lt _ _ P) as FP; rewrite Forall_forall in FP.
    pose proof (Forall2_length _ _ _ G3) as L3; rewrite map_length in L3.
    exists (sorted_of argsort dgm); eexists; exists cs'.
    split; [exact P|split; [exact G1|split; [exact G2|]]].
    split; [rewrite map_length; exact LP|split; [congruence|]].
    split; [apply sorted_of_sorted, Ha|].
    intros j k Hj; pose proof (FP _ (nth_error_In _ _ Hj)) as Hk; split.
    + rewrite (nth_error_map_nth _ _ _ _ _ Hj); symmetry; apply nth_error_nth'; exact Hk.
    + rewrite <- (H7 i dgm cs) in Hk by (lia || assumption).
      destruct (nth_error cs' j) as [c'|] eqn:Ej; [|apply nth_error_None in Ej; apply some_lt in Hj; lia].
      exists (nth k cs (mkCocycle 0 [])), c'.
      split; [apply nth_error_nth'; exact Hk|split; [reflexivity|]].
      rewrite Forall2_nth_error in G3; destruct G3 as [_ G3]; apply (G3 j); [|exact Ej].
      apply nth_error_map_nth, Hj.
  - destruct (nth_error (r_dgms r) 0) as [dgm|] eqn:E1; [|apply nth_error_None in E1; lia].
    destruct (nth_error (r_cocycles r) 0) as [cs|] eqn:E2; [|apply nth_error_None in E2; lia].
    destruct (H 0 dgm cs E1 E2) as [G1 _]; cbn [Nat.leb andb] in G1.
    rewrite G1, map_nth_seq; reflexivity.
  - intros cs E2; destruct (nth_error (r_dgms r) 0) as [dgm|] eqn:E1; [|apply nth_error_None in E1; lia].
    destruct (H 0 dgm cs E1 E2) as [_ (cs' & G2 & G3)]; cbn [Nat.leb andb] in G3.
    rewrite map_nth_seq in G3; exists cs'; split; assumption.
Qed.
Print Assumptions C22_sorted_and_matched.

(** A concrete argsort of reals, a concrete input and a concrete answer. *)
Definition argsort_R : list R -> list nat := argsort_ins Rleb 0%R.
Lemma argsort_R_ok l : is_argsort Rle 0%R l (argsort_R l).
Proof.
  destruct (argsort_ins_ok Rleb 0%R) with (l := l) as [P S].
  - intros x y; destruct (Rle_dec x y) as [H|H]; [left|right]; apply Rleb_true; lra.
  - intros x y z; rewrite !Rleb_true; lra.
  - split; [exact P|]. unfold argsort_R.
    induction S as [|x r S IH F]; constructor; [exact IH|].
    apply Forall_impl with (2 := F); intros; apply Rleb_true; assumption.
Qed.

Definition ex_X : list (list R) := [[0; 1; 2; 7]; [1; 0; 2; 8]; [2; 2; 0; 9]]%R.
Definition ex_answer : ripser_answer :=
  mkAnswer [[(0, 1)]; [(1, 2); (1, 5)]]%R [2; 0]%Z [[2; 2; 0]; [0; 1; 2]]%R
    [[]; [mkCocycle 1 [([2; 0]%Z, 1%Z)]; mkCocycle 1 [([0; 2]%Z, 3%Z)]]].

Lemma ex_input : documented_input ex_X true 3 4.
Proof. split; [split; [reflexivity|repeat constructor]|split; [lia|lia]]. Qed.
Lemma ex_contract : ripser_contract 3 1 ex_answer.
Proof.
  unfold ripser_contract, ex_answer; cbn [r_idx_perm r_dgms r_cocycles r_dperm2all length].
  split; [discriminate|].
  split; [repeat constructor; cbn; lia|].
  split; [repeat constructor; lia|].
  split; [split; [reflexivity|repeat constructor]|].
  split; [lia|split; [reflexivity|split]].
  - intros [|[|[|i]]] dgm cs Hi; cbn; intros E1 E2; try discriminate; try lia.
    injection E1 as <-; injection E2 as <-; reflexivity.
  - cbn; intros cs c row v [<-|[<-|[]]]; [contradiction|].
    intros [<-|[<-|[]]]; cbn; intros [<-|[]]; cbn; tauto.
Qed.

Example C22_nonvacuous :
  exists e dgm', em_init argsort_R (fun _ _ _ _ _ => Ok ex_answer) ex_X 2 true 41 1 = Ok e /\
    nth_error (em_dgms e) 1 = Some dgm' /\ dgm' = [(1, 5); (1, 2)]%R.
Proof.
  destruct (C22_sorted_and_matched argsort_R (fun _ _ _ _ _ => Ok ex_answer) ex_X 2 true 41 1 3 4 ex_answer
    argsort_R_ok ex_input ltac:(lia) eq_refl ex_contract) as (e & E & H & _).
  destruct (H 1 [(1, 2); (1, 5)]%R _ ltac:(cbn; lia) eq_refl eq_refl)
    as (p & dgm' & cs' & P & E1 & _ & L & _ & S & M).
  exists e, dgm'; split; [exact E|split; [exact E1|]].
  cbn [length seq] in P; pose proof (Permutation_length P) as LP; cbn in LP.
  destruct p as [|a [|b [|? ?]]]; try discriminate LP.
  destruct (M 0 a eq_refl) as [Ma _]; destruct (M 1 b eq_refl) as [Mb _].
  assert (Ha : In a [0; 1]) by (eapply Permutation_in; [exact P|left; reflexivity]).
  assert (Hb : In b [0; 1]) by (eapply Permutation_in; [exact P|right; left; reflexivity]).
  assert (Hab : a <> b).
  { assert (ND : NoDup [a; b]) by (eapply Permutation_NoDup; [symmetry; exact P|repeat constructor; cbn; lia]).
    inversion ND as [|? ? N1 _]; intros ->; apply N1; left; reflexivity. }
  cbn in L; destruct dgm' as [|x [|y [|? ?]]]; try discriminate L; cbn in Ma, Mb.
  destruct Ha as [<-|[<-|[]]], Hb as [<-|[<-|[]]]; try congruence; cbn in Ma, Mb;
    injection Ma as ->; injection Mb as ->; [|reflexivity].
  exfalso; inversion S as [|? ? _ F]; inversion F as [|? ? F1 _]; unfold persistence in F1; cbn in F1; lra.
Qed.

(** C23: the matrix ripser sees, the stored distance matrices, and the rejection of
    maxdim < 1 before ripser is called. *)
Theorem C23_landmark_distances :
  forall argsort ripser X n_landmarks distance_matrix prime maxdim N d r,
  (forall l, is_argsort Rle 0%R l (argsort l)) ->
  documented_input X distance_matrix N d -> (1 <= maxdim)%Z ->
  ripser (given_to_ripser X distance_matrix) distance_matrix prime maxdim n_landmarks = Ok r ->
  ripser_contract N (Z.to_nat maxdim) r ->
  let idx := r_idx_perm r in
  (* ripser is given all of X, or its first N columns if there are more columns than rows *)
  (forall i j x, entry (given_to_ripser X distance_matrix) i j x <->
     entry X i j x /\ (distance_matrix = true -> j < N)) /\
  exists e, em_init argsort ripser X n_landmarks distance_matrix prime maxdim = Ok e /\
    em_prime e = prime /\ em_idx_land e = idx /\ em_n_landmarks e = length idx /\
    matrix (length idx) (n_data distance_matrix N d) (em_dist_land_data e) /\
    (distance_matrix = false \/ N = d -> em_dist_land_data e = r_dperm2all r) /\
    (distance_matrix = true -> N <> d -> forall k v, nth_error idx k = Some v ->
       nth_error (em_dist_land_data e) k = nth_error X (Z.to_nat v)) /\
    matrix (length idx) (length idx) (em_dist_land_land e) /\
    (forall k l v x, nth_error idx l = Some v ->
       (entry (em_dist_land_land e) k l x <-> entry (em_dist_land_data e) k (Z.to_nat v) x)).
Proof.
  intros argsort ripser X nl dm prime maxdim N d r Ha Hin Hm Er Hc idx. rewrite (given_ok _ _ _ _ Hin) in Er |- *. split.
  - destruct Hin as (HX & HN & Hd); unfold ripser_metric_input.
    pose proof (shape1_matrix N d X HX HN) as Es.
    destruct dm; cbn [negb]; [|intros; intuition discriminate].
    rewrite Es; pose proof HX as [LX FX]; rewrite LX; destruct (Nat.eqb_spec N d) as [->|Hn]; intros i j x.
    + split; [|tauto]. intros H; split; [exact H|intros _; eapply entry_bounds; eassumption].
    + unfold entry; rewrite nth_error_map; destruct (nth_error X i) as [row|] eqn:E; cbn [option_map].
      * split.
        -- intros (row' & E' & Ex); injection E' as <-.
           assert (j < N).
           { apply some_lt in Ex; rewrite firstn_length in Ex; lia. }
           split; [|tauto]. exists row; split; [reflexivity|].
           rewrite <- Ex; symmetry; apply nth_error_firstn; assumption.
        -- intros ((row' & E' & Ex) & Hj); injection E' as <-; specialize (Hj eq_refl).
           eexists; split; [reflexivity|]. rewrite <- Ex; apply nth_error_firstn; assumption.
      * split; [intros (? & ? & _); discriminate|intros ((? & ? & _) & _); discriminate].
  - destruct (em_init_ok argsort ripser X nl dm prime maxdim N d r Ha Hin Hm Er Hc)
      as (e & dist & Ee & E1 & E2 & E3 & E4 & E5 & _ & E6 & _).
    destruct (dist_ok X dm N d _ r Hin Hc) as (dist' & Ed & HM & H1 & H2).
    rewrite E5 in Ed; apply Ok_inj in Ed; subst dist'.
    assert (F : Forall (fun v => (0 <= v < Z.of_nat (n_data dm N d))%Z) idx).
    { destruct Hc as (_ & _ & F & _); eapply Forall_impl; [|exact F]; cbn beta.
      destruct Hin as (_ & _ & Hd); unfold n_data; destruct dm; [specialize (Hd eq_refl)|]; lia. }
    destruct (land_land_ok _ _ dist idx HM F) as (ll & El & HL & Hl).
    unfold idx in El; rewrite E6 in El; apply Ok_inj in El; subst ll.
    exists e; rewrite E4; repeat (split; [assumption|]).
    intros k l v x Hv; rewrite (Hl k l v x Hv); split; [tauto|].
    intros H; split; [apply (entry_bounds _ _ _ _ _ _ HM H)|exact H].
Qed.
Print Assumptions C23_landmark_distances.

Theorem C23_maxdim_rejected :
  forall argsort ripser X n_landmarks distance_matrix prime maxdim, (maxdim < 1)%Z ->
  em_init argsort ripser X n_landmarks distance_matrix prime maxdim = Raise AssertionError.
Proof.
  intros; unfold em_init; rewrite (proj2 (Z.leb_gt 1 maxdim)) by assumption; reflexivity.
Qed.
Print Assumptions C23_maxdim_rejected.

Example C23_nonvacuous :
  documented_input ex_X true 3 4 /\ 3 <> 4 /\ ripser_contract 3 1 ex_answer /\
  given_to_ripser ex_X true = [[0; 1; 2]; [1; 0; 2]; [2; 2; 0]]%R /\
  landmark_distances ex_X true 3 4 ex_answer [[2; 2; 0; 9]; [0; 1; 2; 7]]%R.
Proof.
  split; [exact ex_input|split; [lia|split; [exact ex_contract|split; [reflexivity|]]]].
  apply (landmark_distances_ok _ _ _ _ _ _ _ ex_input ex_contract). reflexivity.
Qed.

(** C24: the documentation's coverage is the covering radius; what is stored is always 0
    (the minimum is taken over the wrong axis). *)
Theorem C24_coverage_is_zero :
  forall argsort ripser X n_landmarks distance_matrix prime maxdim N d r e,
  (forall l, is_argsort Rle 0%R l (argsort l)) ->
  documented_input X distance_matrix N d -> (1 <= maxdim)%Z ->
  ripser (given_to_ripser X distance_matrix) distance_matrix prime maxdim n_landmarks = Ok r ->
  ripser_contract N (Z.to_nat maxdim) r ->
  em_init argsort ripser X n_landmarks distance_matrix prime maxdim = Ok e ->
  (* distances are non-negative, and a landmark is at distance 0 from itself *)
  (forall i j x, entry (em_dist_land_data e) i j x -> 0 <= x)%R ->
  (forall k v, nth_error (em_idx_land e) k = Some v -> entry (em_dist_land_data e) k (Z.to_nat v) 0%R) ->
  em_coverage e = 0%R.
Proof.
  intros argsort ripser X nl dm prime maxdim N d r e Ha Hin Hm Er Hc Ee Hpos Hself. rewrite (given_ok _ _ _ _ Hin) in Er.
  destruct (em_init_ok argsort ripser X nl dm prime maxdim N d r Ha Hin Hm Er Hc)
    as (e' & dist & Ee' & _ & E2 & _ & E4 & E5 & E6 & _).
  rewrite Ee in Ee'; apply Ok_inj in Ee'; subst e'.
  destruct (dist_ok X dm N d _ r Hin Hc) as (dist' & Ed & HM & _).
  rewrite E5 in Ed; apply Ok_inj in Ed; subst dist'.
  destruct Hc as (Hne & _ & _).
  assert (Hn : 1 <= length (r_idx_perm r)) by (destruct (r_idx_perm r); [congruence|cbn; lia]).
  destruct (coverage_ok _ _ dist HM Hn) as (c & Ec & (row & R1 & R2 & R3) & Hall).
  { destruct Hin as (_ & HN & Hd); unfold n_data; destruct dm; [specialize (Hd eq_refl)|]; lia. }
  rewrite E6 in Ec; apply Ok_inj in Ec; subst c; rewrite E4 in *.
  apply In_nth_error in R1; destruct R1 as (k & Hk).
  apply Rle_antisym.
  - destruct (nth_error (r_idx_perm r) k) as [v|] eqn:Ev.
    + rewrite E2 in Hself; destruct (Hself k v Ev) as (row' & Er' & E0).
      rewrite Hk in Er'; injection Er' as <-; apply R3; eapply nth_error_In, E0.
    + apply nth_error_None in Ev; apply some_lt in Hk; destruct HM; lia.
  - apply In_nth_error in R2; destruct R2 as (j & Hj).
    apply (Hpos k j); exists row; split; assumption.
Qed.
Print Assumptions C24_coverage_is_zero.

Theorem C24_coverage_refuted :
  exists argsort ripser X r e,
    (forall l, is_argsort Rle 0%R l (argsort l)) /\ documented_input X true 2 2 /\
    ripser_contract 2 1 r /\ (forall X' dm p md n, ripser X' dm p md n = Ok r) /\
    em_init argsort ripser X 1 true 41 1 = Ok e /\
    covering_radius (em_dist_land_data e) 2 1 /\ em_coverage e = 0%R.
Proof.
  set (r := mkAnswer [[]; []] [0]%Z [[0; 1]]%R [[]; []]).
  assert (Hin : documented_input [[0; 1]; [1; 0]]%R true 2 2).
  { split; [split; [reflexivity|repeat constructor]|split; lia]. }
  assert (Hc : ripser_contract 2 1 r).
  { unfold ripser_contract, r; cbn [r_idx_perm r_dgms r_cocycles r_dperm2all length].
    split; [discriminate|]. split; [repeat constructor; cbn; lia|]. split; [repeat constructor; lia|].
    split; [split; [reflexivity|repeat constructor]|]. split; [lia|split; [reflexivity|split]].
    - intros [|[|[|i]]] dgm cs Hi; cbn; intros E1 E2; try discriminate; try lia.
      injection E1 as <-; injection E2 as <-; reflexivity.
    - cbn; intros cs c row v [<-|[<-|[]]]; contradiction. }
  destruct (em_init_ok argsort_R (fun _ _ _ _ _ => Ok r) _ 1 true 41 1 2 2 r argsort_R_ok Hin
    ltac:(lia) eq_refl Hc) as (e & dist & Ee & _ & E2 & _ & E4 & E5 & _ & _).
  assert (Ed : em_dist_land_data e = [[0; 1]]%R) by (rewrite E4; cbn in E5; congruence).
  exists argsort_R, (fun _ _ _ _ _ => Ok r), [[0; 1]; [1; 0]]%R, r, e.
  split; [exact argsort_R_ok|]. split; [exact Hin|]. split; [exact Hc|]. split; [reflexivity|].
  split; [exact Ee|]. split.
  - rewrite Ed; split.
    + intros [|[|j]] Hj; [exists 0, 0%R; split; [exists [0; 1]%R; split; reflexivity|lra]
                         |exists 0, 1%R; split; [exists [0; 1]%R; split; reflexivity|lra]|lia].
    + exists 1; split; [lia|]. intros [|i] x (row & E & Ex); [|destruct i; discriminate].
      cbn in E; injection E as <-; cbn in Ex; injection Ex as <-; lra.
  - apply (C24_coverage_is_zero argsort_R (fun _ _ _ _ _ => Ok r) [[0; 1]; [1; 0]]%R 1 true 41 1 2 2 r e
             argsort_R_ok Hin ltac:(lia) eq_refl Hc Ee); rewrite Ed.
    + intros [|i] j x (row & E & Ex); [|destruct i; discriminate].
      cbn in E; injection E as <-; destruct j as [|[|j]]; cbn in Ex; [..|destruct j; discriminate];
        injection Ex as <-; lra.
    + rewrite E2; cbn; intros [|k] v E; [|destruct k; discriminate].
      cbn in E; injection E as <-; exists [0; 1]%R; split; reflexivity.
Qed.
Print Assumptions C24_coverage_refuted.

(** C25: selecting a class. *)
Theorem C25_selecting_a_class :
  forall e h dgm cs k, nth_error (em_dgms e) h = Some dgm -> nth_error (em_cocycles e) h = Some cs ->
  length cs = length dgm ->
  let n := Z.of_nat (length dgm) in
  let result := get_representative_cocycle e (PyInt k) (Z.of_nat h) in
  let is_class i := exists birth death c, nth_error dgm i = Some (birth, death) /\
                      nth_error cs i = Some c /\ result = Ok (birth, death, c) in
  ((0 <= k < n)%Z -> is_class (Z.to_nat k)) /\
  ((- n <= k < 0)%Z -> is_class (Z.to_nat (n + k))) /\
  ((k < - n \/ n <= k)%Z -> result = Raise IndexError) /\
  (forall h', get_representative_cocycle e PyOther h' = Raise AssertionError).
Proof.
  intros e h dgm cs k E1 E2 L n result is_class.
  assert (Eh : forall A (l : list (list A)) x, nth_error l h = Some x -> np_get l (Z.of_nat h) = Ok x).
  { intros A l x E; pose proof (some_lt _ _ _ E); rewrite (np_get_ok l (Z.of_nat h) []) by lia.
    rewrite Nat2Z.id; f_equal; apply nth_error_nth, E. }
  assert (Er : result = (bd <- np_get dgm k ;; c <- np_get cs k ;; Ok (fst bd, snd bd, c))).
  { unfold result, get_representative_cocycle; rewrite (Eh _ _ _ E1); cbn [bind].
    rewrite (Eh _ _ _ E2); reflexivity. }
  unfold is_class; rewrite Er; clear Er result is_class.
  pose proof (np_get_cases dgm k) as C1; pose proof (np_get_cases cs k) as C2; rewrite L in C2.
  cbv zeta in C1, C2; fold n in C1, C2.
  split; [|split; [|split; [|reflexivity]]]; intros Hk.
  - destruct C1 as [([b dd] & _ & -> & N1)|[(? & ? & _)|[? _]]]; try lia.
    destruct C2 as [(c & _ & -> & N2)|[(? & ? & _)|[? _]]]; try lia.
    exists b, dd, c; repeat split; assumption.
  - destruct C1 as [(? & ? & _)|[([b dd] & _ & -> & N1)|[? _]]]; try lia.
    destruct C2 as [(? & ? & _)|[(c & _ & -> & N2)|[? _]]]; try lia.
    exists b, dd, c; repeat split; assumption.
  - destruct C1 as [(? & ? & _)|[(? & ? & _)|[_ ->]]]; try lia; reflexivity.
Qed.
Print Assumptions C25_selecting_a_class.

Example C25_nonvacuous :
  let e := mkEM 41 [[]; [(1, 5); (1, 2)]]%R [] 0 [] 0 [] [[]; [mkCocycle 1 []; mkCocycle 1 [([0; 1]%Z, 3%Z)]]] None None in
  get_representative_cocycle e (PyInt 1) 1 = Ok (1, 2, mkCocycle 1 [([0; 1]%Z, 3%Z)])%R /\
  get_representative_cocycle e (PyInt (-2)) 1 = Ok (1, 5, mkCocycle 1 [])%R /\
  get_representative_cocycle e (PyInt 2) 1 = Raise IndexError /\
  get_representative_cocycle e (PyInt (-3)) 1 = Raise IndexError.
Proof. cbn; repeat split; reflexivity. Qed.

(** C26: the cover radius. *)
Theorem C26_cover_radius :
  forall e perc birth death (standard_range : bool),
  let start := if standard_range then (2 * birth)%R else birth in
  let (e', result) := get_cover_radius e perc birth death standard_range in
  ((start > death)%R -> result = Raise ClassTooShort /\ e' = e) /\
  ((start <= death)%R -> exists r_cover threshold,
     result = Ok (r_cover, threshold) /\
     threshold = ((1 - perc) * start + perc * death)%R /\ r_cover = (threshold / 2)%R /\
     ((0 <= perc <= 1)%R -> (start <= threshold <= death)%R) /\
     (perc = 0%R -> threshold = start) /\ (perc = 1%R -> threshold = death) /\
     em_rips_threshold e' = Some threshold /\ em_r_cover e' = Some r_cover /\
     em_dgms e' = em_dgms e /\ em_cocycles e' = em_cocycles e /\ em_prime e' = em_prime e /\
     em_idx_land e' = em_idx_land e /\ em_n_landmarks e' = em_n_landmarks e /\
     em_dist_land_data e' = em_dist_land_data e /\ em_dist_land_land e' = em_dist_land_land e /\
     em_coverage e' = em_coverage e).
Proof.
  intros e perc birth death sr start; unfold get_cover_radius; fold start.
  destruct (Rltb death start) eqn:E.
  - apply Rltb_true in E; split; [intros _; split; reflexivity|intros; lra].
  - apply Rltb_false in E; split; [intros; lra|intros _].
    eexists; eexists; split; [reflexivity|]. cbn.
    split; [reflexivity|]. split; [reflexivity|].
    split; [intros Hp; split; nra|]. split; [intros ->; lra|]. split; [intros ->; lra|].
    repeat (split; [reflexivity|]); reflexivity.
Qed.
Print Assumptions C26_cover_radius.

Theorem C26_monotone_in_perc :
  forall e e' p p' birth death (standard_range : bool) r t r' t', (p <= p')%R ->
  snd (get_cover_radius e p birth death standard_range) = Ok (r, t) ->
  snd (get_cover_radius e' p' birth death standard_range) = Ok (r', t') ->
  (r <= r')%R /\ (t <= t')%R.
Proof.
  intros e e' p p' birth death sr r t r' t' Hp; unfold get_cover_radius.
  set (start := if sr then _ else _); destruct (Rltb death start) eqn:E; cbn [snd]; [discriminate|].
  apply Rltb_false in E; intros E1 E2; injection E1 as <- <-; injection E2 as <- <-.
  assert ((1 - p) * start + p * death <= (1 - p') * start + p' * death)%R by nra.
  split; lra.
Qed.
Print Assumptions C26_monotone_in_perc.

Example C26_nonvacuous : forall e,
  snd (get_cover_radius e (1 / 2) 1 4 true) = Ok (3 / 2, 3)%R /\
  snd (get_cover_radius e (1 / 2) 3 4 true) = Raise ClassTooShort.
Proof.
  intros e; split.
  - pose proof (C26_cover_radius e (1 / 2) 1 4 true) as H; destruct (get_cover_radius _ _ _ _ _) as [e' res].
    destruct H as [_ H]; destruct H as (r & t & -> & -> & -> & _); [lra|]; cbn; do 2 f_equal; lra.
  - pose proof (C26_cover_radius e (1 / 2) 3 4 true) as H; destruct (get_cover_radius _ _ _ _ _) as [e' res].
    destruct H as [H _]; destruct H as (-> & _); [lra|reflexivity].
Qed.

(** C27: the notebook parameter_standard_range promises an error when 2a >= b; at
    2a = b there is none: every perc gives the threshold b. *)
Theorem C27_boundary_accepted_refuted :
  (forall e perc a b, (2 * a = b)%R ->
     snd (get_cover_radius e perc a b true) = Ok (b / 2, b)%R) /\
  (forall e perc a b, snd (get_cover_radius e perc a b true) = Raise ClassTooShort <-> (2 * a > b)%R).
Proof.
  split; intros e perc a b.
  - intros H; unfold get_cover_radius; rewrite (proj2 (Rltb_false b (2 * a))) by lra; cbn [snd].
    rewrite H; f_equal; f_equal; lra.
  - unfold get_cover_radius; destruct (Rltb b (2 * a)) eqn:E; cbn [snd].
    + apply Rltb_true in E; split; [lra|reflexivity].
    + apply Rltb_false in E; split; [discriminate|lra].
Qed.
Print Assumptions C27_boundary_accepted_refuted.

(** C28: the partition of unity. *)
Theorem C28_partition_of_unity :
  forall e r f n m, matrix n m (em_dist_land_data e) -> (1 <= n)%nat ->
  (forall i b d, entry (em_dist_land_data e) i b d -> 0 <= d)%R ->
  (forall d, (0 <= d < r)%R -> (0 < f d r)%R) ->
  let (varphi, ball) := get_covering_partition e r f in
  let dist := em_dist_land_data e in
  matrix n m varphi /\ length ball = m /\
  forall b, (b < m)%nat ->
  ((exists i, in_ball dist r i b) ->
     (exists w, length w = n /\ total w = 1%R /\
        (forall i x, nth_error w i = Some x ->
           entry varphi i b (Some x) /\ (0 <= x)%R /\ ((0 < x)%R <-> in_ball dist r i b)) /\
        (exists s, (0 < s)%R /\ forall i d x, entry dist i b d -> (d < r)%R ->
           nth_error w i = Some x -> (x * s)%R = f d r)) /\
     (exists k, nth_error ball b = Some k /\ in_ball dist r k b /\
        forall i, (i < k)%nat -> ~ in_ball dist r i b)) /\
  ((forall i, ~ in_ball dist r i b) ->
     (forall i, (i < n)%nat -> entry varphi i b None) /\ nth_error ball b = Some 0).
Proof.
  intros e r f n m HM Hn Hpos Hf.
  destruct (get_covering_partition e r f) as [varphi ball] eqn:Eg; cbv zeta.
  set (dist := em_dist_land_data e) in *.
  destruct (partition_shape e r f n m HM Hn) as [S1 S2].
  rewrite Eg in S1, S2; cbn [fst snd] in S1, S2.
  split; [exact S1|split; [exact S2|]]; intros b Hb.
  set (phi := fun d => if Rltb d r then f d r else 0%R).
  set (col := column (map (map phi) dist) b).
  assert (Lcol : length col = n) by (unfold col, column; rewrite !map_length; apply HM).
  assert (Hcol : forall i d, entry dist i b d -> nth_error col i = Some (phi d)).
  { intros i d Hd; apply (column_nth dist phi n m b i d HM Hd). }
  assert (Hent : forall i d, entry dist i b d ->
    entry varphi i b (if Reqb (np_sum col) 0 then None else Some (phi d / np_sum col)%R)).
  { intros i d Hd; pose proof (partition_entry e r f n m HM Hn i b d Hd) as H; rewrite Eg in H; exact H. }
  assert (Hphi : forall i d, entry dist i b d -> (0 <= phi d)%R /\ ((0 < phi d)%R <-> (d < r)%R)).
  { intros i d Hd; unfold phi; pose proof (Hpos _ _ _ Hd); destruct (Rltb d r) eqn:E.
    - apply Rltb_true in E; pose proof (Hf d (conj H E)); split; [lra|tauto].
    - apply Rltb_false in E; split; lra. }
  assert (Hnn : Forall (fun x => 0 <= x)%R col).
  { apply Forall_forall; intros x Hx.
    destruct (col_in e r f n m HM Hn b x Hb Hx) as (i & d & Hd & ->); apply (Hphi i d Hd). }
  assert (Hball : nth_error ball b = Some (argmax_bool (bcolumn (map (map (fun d => Rltb d r)) dist) b))).
  { pose proof (partition_ball e r f n m HM Hn b Hb) as H; rewrite Eg in H; exact H. }
  set (bc := bcolumn (map (map (fun d => Rltb d r)) dist) b) in *.
  assert (Hbc : forall i, i < n -> exists d, entry dist i b d /\ nth_error bc i = Some (Rltb d r)).
  { intros i Hi; destruct (matrix_entry n m dist i b HM Hi Hb) as (d & Hd); exists d; split; [exact Hd|].
    exact (bcolumn_nth dist (fun d => Rltb d r) n m b i d HM Hd). }
  assert (Lbc : length bc = n) by (unfold bc, bcolumn; rewrite !map_length; apply HM).
  assert (Hin : forall i, in_ball dist r i b <-> nth_error bc i = Some true).
  { intros i; split.
    - intros (d & Hd & Hr); unfold bc; rewrite (bcolumn_nth dist (fun d => Rltb d r) n m b i d HM Hd).
      f_equal; apply Rltb_true; exact Hr.
    - intros Hi; destruct (Hbc i) as (d & Hd & Ed); [apply some_lt in Hi; lia|].
      exists d; split; [exact Hd|]; apply Rltb_true; congruence. }
  pose proof (first_true_spec bc) as FT; unfold argmax_bool in Hball.
  split.
  - intros (i0 & d0 & Hd0 & Hr0).
    assert (Hs : (0 < np_sum col)%R).
    { apply Rlt_le_trans with (phi d0); [apply (Hphi i0 d0 Hd0), Hr0|].
      apply np_sum_ge; [exact Hnn|]; eapply nth_error_In, Hcol, Hd0. }
    split.
    + exists (map (fun x => x / np_sum col)%R col); split; [rewrite map_length; exact Lcol|].
      split; [|split].
      * change total with np_sum; rewrite np_sum_div; field; lra.
      * intros i x Ex; rewrite nth_error_map in Ex.
        destruct (nth_error col i) as [y|] eqn:Ey; [|discriminate]; cbn in Ex; injection Ex as <-.
        destruct (matrix_entry n m dist i b HM) as (d & Hd); [apply some_lt in Ey; lia|exact Hb|].
        pose proof (Hcol i d Hd) as Ey'; rewrite Ey in Ey'; injection Ey' as ->.
        pose proof (Hent i d Hd) as He; rewrite (proj2 (Reqb_false _ _)) in He by lra.
        destruct (Hphi i d Hd) as [P1 P2].
        split; [exact He|split].
        -- apply Rmult_le_pos; [exact P1|]; left; apply Rinv_0_lt_compat, Hs.
        -- split.
           ++ intros H; exists d; split; [exact Hd|]; apply P2.
              destruct P1 as [P1|P1]; [exact P1|rewrite <- P1 in H; unfold Rdiv in H; lra].
           ++ intros (d' & Hd' & Hr); rewrite (entry_unique _ _ _ _ _ Hd Hd').
              apply Rmult_lt_0_compat; [|apply Rinv_0_lt_compat, Hs].
              rewrite <- (entry_unique _ _ _ _ _ Hd Hd'); apply P2; rewrite (entry_unique _ _ _ _ _ Hd Hd'); exact Hr.
      * exists (np_sum col); split; [exact Hs|]; intros i d x Hd Hr Ex.
        rewrite nth_error_map, (Hcol i d Hd) in Ex; cbn in Ex; injection Ex as <-.
        replace (f d r) with (phi d); [field; lra|unfold phi; rewrite (proj2 (Rltb_true d r) Hr); reflexivity].
    + assert (Ht : exists k, first_true bc = Some k).
      { destruct (first_true bc) as [k|]; [exists k; reflexivity|exfalso].
        apply (FT i0), Hin; exists d0; split; assumption. }
      destruct Ht as (k & Ek); rewrite Ek in FT, Hball; exists k; split; [exact Hball|].
      destruct FT as [F1 F2]; split; [apply Hin, F1|]. intros i Hi Hc; apply Hin in Hc.
      rewrite (F2 i Hi) in Hc; discriminate.
  - intros Hno; split.
    + intros i Hi; destruct (matrix_entry n m dist i b HM Hi Hb) as (d & Hd).
      assert (E0 : np_sum col = 0%R).
      { apply np_sum_zero, Forall_forall; intros x Hx.
        destruct (col_in e r f n m HM Hn b x Hb Hx) as (j & d' & Hd' & ->).
        destruct (Rltb d' r) eqn:E; [|reflexivity].
        exfalso; apply (Hno j); exists d'; split; [exact Hd'|apply Rltb_true, E]. }
      pose proof (Hent i d Hd) as He; rewrite (proj2 (Reqb_true _ _) E0) in He; exact He.
    + destruct (first_true bc) as [k|]; [|exact Hball].
      exfalso; apply (Hno k), Hin, FT.
Qed.
Print Assumptions C28_partition_of_unity.

(** The formula, for any bump function. *)
Theorem C28_formula :
  forall e r f n m, matrix n m (em_dist_land_data e) -> (1 <= n)%nat ->
  let dist := em_dist_land_data e in
  let (varphi, ball) := get_covering_partition e r f in
  matrix n m varphi /\ length ball = m /\
  (forall i b, (i < n)%nat -> (b < m)%nat -> entry varphi i b (unity_weight dist r f i b)).
Proof.
  intros e r f n m HM Hn dist. pose proof (partition_shape e r f n m HM Hn) as [S1 S2].
  pose proof (partition_weight e r f n m HM Hn) as W. fold dist in W.
  destruct (get_covering_partition e r f) as [varphi ball]. cbn [fst snd] in *. auto.
Qed.

Print Assumptions C28_formula.

Example C28_nonvacuous :
  let e := mkEM 41 [] [] 2 [[0; 1; 9]; [2; 1 / 2; 9]]%R 0 [] [] None None in
  matrix 2 3 (em_dist_land_data e) /\
  (forall i b d, entry (em_dist_land_data e) i b d -> 0 <= d)%R /\
  in_ball (em_dist_land_data e) (3 / 2) 0 1 /\ in_ball (em_dist_land_data e) (3 / 2) 1 1 /\
  (forall i, ~ in_ball (em_dist_land_data e) (3 / 2) i 2).
Proof.
  cbn; assert (G : forall i b d, entry [[0; 1; 9]; [2; 1 / 2; 9]]%R i b d -> (0 <= d)%R /\ (b = 2 -> d = 9%R)).
  { intros [|[|i]] b d (row & E & Ex); [..|destruct i; discriminate]; cbn in E; injection E as <-;
      (destruct b as [|[|[|b]]]; cbn in Ex; [..|destruct b; discriminate]); injection Ex as <-;
      (split; [lra|intros; lia || reflexivity]). }
  split; [split; [reflexivity|repeat constructor]|].
  split; [intros i b d H; apply (G i b d H)|].
  split; [exists 1%R; split; [exists [0; 1; 9]%R; split; reflexivity|lra]|].
  split; [exists (1 / 2)%R; split; [exists [2; 1 / 2; 9]%R; split; reflexivity|lra]|].
  intros i (d & Hd & Hr); destruct (G _ _ _ Hd) as [_ G2]; rewrite (G2 eq_refl) in Hr; lra.
Qed.

(** C29: the three standard bump functions. *)
Theorem C29_bump_functions :
  forall r, (0 < r)%R ->
  (forall f, In f [pu_linear; pu_quadratic; pu_exp] ->
     (forall d, (0 <= d < r)%R -> (0 < f d r)%R) /\
     (forall d d', (0 <= d < d')%R -> (d' < r)%R -> (f d' r < f d r)%R)) /\
  pu_linear r r = 0%R /\ pu_quadratic r r = 0%R /\
  (forall d, pu_linear d r = r - d /\ pu_quadratic d r = (r - d) * (r - d))%R /\
  (forall d, (0 <= d < r)%R -> pu_exp d r = exp (- (r * r) / (r * r - d * d)))%R.
Proof.
  intros r Hr; split; [|split; [|split; [|split]]].
  - cbn [In]; intros f [<-|[<-|[<-|[]]]]; unfold pu_linear, pu_quadratic, pu_exp.
    + split; intros; lra.
    + split; intros; [apply pow_lt; lra|nra].
    + split; [intros; apply exp_pos|]. intros d d' Hd Hd'; apply exp_increasing.
      assert (H1 : (0 < r ^ 2 - d' ^ 2)%R) by nra.
      assert (H2 : (r ^ 2 - d' ^ 2 < r ^ 2 - d ^ 2)%R) by nra.
      replace (r ^ 2 / (d' ^ 2 - r ^ 2))%R with (- (r ^ 2 / (r ^ 2 - d' ^ 2)))%R by (field; lra).
      replace (r ^ 2 / (d ^ 2 - r ^ 2))%R with (- (r ^ 2 / (r ^ 2 - d ^ 2)))%R by (field; lra).
      apply Ropp_lt_contravar, Rmult_lt_compat_l; [nra|]. apply Rinv_lt_contravar; [nra|exact H2].
  - unfold pu_linear; ring.
  - unfold pu_quadratic; ring.
  - intros d; unfold pu_linear, pu_quadratic; split; ring.
  - intros d Hd; unfold pu_exp; f_equal; field; nra.
Qed.
Print Assumptions C29_bump_functions.

(** C74: docs/theory.rst:65-73.  The radius that is used is at most half of the documented
    alpha (never more), whatever the data; equality needs perc = 1 or cover <= start. *)
Theorem C74_radius_used :
  forall e perc birth death (standard_range : bool) r t cover, (0 <= perc <= 1)%R ->
  snd (get_cover_radius e perc birth death standard_range) = Ok (r, t) ->
  let alpha := documented_alpha cover birth death perc standard_range in
  (2 * r <= alpha)%R /\
  ((2 * r = alpha)%R <-> perc = 1%R \/ (cover <= if standard_range then 2 * birth else birth)%R).
Proof.
  intros e perc birth death sr r t cover Hp; unfold get_cover_radius, documented_alpha.
  set (start := if sr then _ else _); destruct (Rltb death start) eqn:E; cbn [snd]; [discriminate|].
  intros E1; injection E1 as <- <-.
  pose proof (Rmax_r cover start) as M1.
  split; [nra|split].
  - intros H. destruct (Req_dec perc 1) as [->|Hne]; [left; reflexivity|right].
    assert (start = Rmax cover start) as ->; [|apply Rmax_l].
    apply Rmult_eq_reg_l with (1 - perc)%R; lra.
  - intros [->|H]; [lra|]. rewrite (Rmax_right cover start H); lra.
Qed.
Print Assumptions C74_radius_used.

(** Refutation: a data point inside the documented thickening gets no coordinates. *)
Theorem C74_documented_alpha_refuted :
  exists e perc birth death r t cover b,
    covering_radius (em_dist_land_data e) 3 cover /\ (0 <= perc <= 1)%R /\
    snd (get_cover_radius e perc birth death true) = Ok (r, t) /\
    (exists i, in_ball (em_dist_land_data e) (documented_alpha cover birth death perc true) i b) /\
    forall f i, (forall d, 0 <= d < r -> 0 < f d r)%R ->
      (i < 2)%nat -> entry (fst (get_covering_partition e r f)) i b None.
Proof.
  set (e := mkEM 41 [] [] 2 [[0; 4; 3]; [4; 0; 3]]%R 0 [] [] None None).
  exists e, (1 / 2)%R, 1%R, 4%R, (3 / 2)%R, 3%R, 3%R, 2.
  assert (HM : matrix 2 3 (em_dist_land_data e)) by (split; [reflexivity|repeat constructor]).
  assert (G : forall i b d, entry (em_dist_land_data e) i b d -> (0 <= d)%R /\ (b = 2 -> d = 3%R)).
  { intros [|[|i]] b d (row & E & Ex); [..|destruct i; discriminate]; cbn in E; injection E as <-;
      (destruct b as [|[|[|b]]]; cbn in Ex; [..|destruct b; discriminate]); injection Ex as <-;
      (split; [lra|intros; lia || reflexivity]). }
  split; [|split; [lra|split; [apply (C26_nonvacuous e)|split]]].
  - split.
    + intros [|[|[|j]]] Hj; [exists 0, 0%R|exists 1, 0%R|exists 0, 3%R|lia];
        (split; [eexists; split; reflexivity|lra]).
    + exists 2; split; [lia|]. intros i x H; destruct (G _ _ _ H) as [_ G2]; rewrite (G2 eq_refl); lra.
  - exists 0, 3%R; split; [eexists; split; reflexivity|].
    unfold documented_alpha; rewrite Rmax_left by lra; lra.
  - intros f i Hf Hi.
    pose proof (C28_partition_of_unity e (3 / 2) f 2 3 HM ltac:(lia) (fun i b d H => proj1 (G i b d H)) Hf) as H.
    destruct (get_covering_partition e (3 / 2) f) as [varphi ball]; cbv zeta in H; cbn [fst].
    destruct H as (_ & _ & H); destruct (H 2 ltac:(lia)) as [_ H2]; apply H2; [|exact Hi].
    intros j (d & Hd & Hr); destruct (G _ _ _ Hd) as [_ G2]; rewrite (G2 eq_refl) in Hr; lra.
Qed.
Print Assumptions C74_documented_alpha_refuted.
