(** PropComplexProj.v -- ComplexProjectiveCoords: class map and answer (C46, C47). *)
From Coq Require Import Permutation String.
From Verif Require Argsort.
From Verif Require Import Base BaseProofs CombinatorialModel SpecSimplex CombinatorialProofs DeltaModel SpecRips RipsProofs DeltaProofs DeltaFacts PropDelta
  RealBase CohomologyModel SpecCohomology CohomologyProofs SpecLLL LLLModel LLLProofs EMModel SpecEM EMProofs PropEM CircleProofs RealSum
  ToroidalModel SpecToroidal ToroidalProofs SpecHarmonic HarmonicProofs LeastSquares RepairModel PropRepair ComplexBase PPCAModel SpecPPCA PPCAProofs PropPPCA
  ClassMapModel SpecClassMap ClassMapProofs PropClassMap ComplexProjModel SpecComplexProj ComplexProjProofs ComplexProjFacts.
Import ListNotations.
Local Open Scope R_scope.

Lemma square_of n (dm : list (list R)) : matrix n n dm -> square dm /\ List.length dm = n.
Proof. intros [L F]. split; [|exact L]. unfold square. rewrite L. exact F. Qed.

Lemma complex_main : forall ext eigh globals self n N n' perc k birth death c l a f sr check proj_dim m,
  let e := cp_em self in let ll := em_dist_land_land e in
  sound_numpy ext -> em_consistent e n N 2 -> em_metric e -> (Z.of_nat n <= 2345)%Z ->
  (n <= n')%nat -> cp_table self = combinatorial_number_system_table n' 3 ->
  em_class e 2 k birth death c -> integer_lift (em_prime e) c l -> triangle_values l n a ->
  start_of birth sr <= death ->
  let t := (1 - perc) * start_of birth sr + perc * death in let r := t / 2 in
  (check = true -> tetrahedra_cocycle ll n t a) ->
  (forall d, 0 <= d < r -> 0 < f d r) ->
  exists vec g ball store,
    List.length vec = comb n 3 /\ (forall i j k, (i < n)%nat -> (j < n)%nat -> (k < n)%nat -> a i j k = alt3 vec i j k) /\
    (least_squares (x_lsqr ext) -> best_integral ll t (alt3 vec) (alt2 g)) /\
    covering_choice e r n N ball /\
    class_lifted (em_prime e) 2 k (em_cocycles e) store /\
    complexprojective_get_coordinates ext eigh globals self perc k proj_dim f sr check m =
      cstored self (with_radius_lifted e r t store) (ppca eigh (if numba_freezes N n then weights_class_map e r f n N else phase_class_map e r f n N (alt3 vec) (alt2 g) ball) n proj_dim m).
Proof.
  intros ext eigh globals [e T v] n N n' perc k birth death c l a f sr check proj_dim m e0 ll [Ha Hlen] Hc Hm Hn Hn' HT Hk HL0 Hv Hst t r Hcc Hf. apply integer_lift_ok in HL0. subst l.
  cbn [cp_em cp_table] in e0, HT. subst e0 T.
  pose proof (ec_landmarks _ _ _ _ Hc) as Hl. pose proof (ec_ll _ _ _ _ Hc) as ML. pose proof (ec_ld _ _ _ _ Hc) as MD.
  destruct (square_of _ _ ML) as [Hsq Ln].
  pose proof (class_simplex _ n N 2 k birth death c Hc Hk) as Sc. apply (lift_simplex n 2 (em_prime e)) in Sc.
  unfold complexprojective_get_coordinates. cbn [cp_em cp_table cp_variance].
  apply em_class2 in Hk. pose proof Hk as Hk'. rewrite Hk. rewrite radius_ok by exact Hst. fold t r.
  set (e1 := with_radius e r t).
  assert (Hc1 : em_consistent e1 n N 2) by (destruct Hc; constructor; assumption).
  change (get_covering_partition e1 r f) with (get_covering_partition e r f).
  destruct (get_covering_partition e r f) as [varphi ball] eqn:EP.
  change (em_dist_land_land e1) with ll.
  destruct (make_delta1 Rltb (x_junk ext) ll t (combinatorial_number_system_table n' 3)) as [M|] eqn:EM.
  2:{ rewrite (delta1_ok Rltb (x_junk ext) ll t n' 3 Hsq) in EM; [discriminate|unfold ll; lia|lia|apply tri_fit; unfold ll; rewrite Ln; exact Hn]. }
  destruct (lift_class e1 n N 2 k birth death c Hc1) as (store & El & Hst'); [apply em_class2; exact Hk'|].
  change (Z.of_nat 2) with 2%Z in El. rewrite El.
  destruct (sparse_cocycle_to_vector (x_argsort ext) (lift_to_integer_cocycle (em_prime e) c) (combinatorial_number_system_table n' 3) n) as [vec|] eqn:EV.
  2:{ destruct Sc as (D1 & D2 & _). destruct (sparse_to_vector_ok (x_argsort ext) n 2 _ n' 3 Hn' ltac:(lia) D1 D2 Ha) as (v' & Q & _). congruence. }
  destruct (vector_values (x_argsort ext) n' 3 n _ vec Hn' ltac:(lia) Ha Sc EV) as (Lv & Va). specialize (Va a Hv).
  set (g := x_lsqr ext M (map IZR vec)).
  assert (CM : s_cols M = comb n 2).
  { pose proof EM as EM'. rewrite (delta1_ok Rltb (x_junk ext) ll t n' 3 Hsq) in EM'; [injection EM' as <-; cbn; unfold ll; rewrite Ln; reflexivity|unfold ll; lia|lia|apply tri_fit; unfold ll; rewrite Ln; exact Hn]. }
  assert (Lg : List.length g = comb n 2) by (unfold g; rewrite Hlen; exact CM).
  destruct (harmonic_tensor ll t n' 3 n vec g (x_junk ext) Hsq Ln Hn' ltac:(lia) Hn Lv Lg (proj1 Hm) M EM) as (d & nu & eta & Ed & E1 & E2 & H1 & H2).
  exists vec, g, (fun b => nth b ball 0%nat), store.
  split; [exact Lv|]. split; [exact Va|].
  split. { intros HL. apply (best_integral_ok ll t n' 3 Hsq ltac:(unfold ll; lia) ltac:(lia) (x_lsqr ext) (x_junk ext) M vec HL); unfold ll; rewrite ?Ln; assumption. }
  assert (PF := partition_facts e r f n N MD (ec_pos _ _ _ _ Hc) (ec_nonneg _ _ _ _ Hc) Hf). rewrite EP in PF. cbn [fst snd] in PF. destruct PF as ([LV _] & LB & CC & _).
  split; [exact CC|]. split; [exact Hst'|].
  unfold complex_coordinates. cbn [set_cocycles em_prime em_n_landmarks em_dist_land_land]. change (em_prime e1) with (em_prime e). change (em_n_landmarks e1) with (em_n_landmarks e).
  change (em_dist_land_land e1) with ll. rewrite Hl, EV. cbn [bind].
  assert (RP : (if check then repair_two Rltb globals (x_junk ext) (em_prime e) (x_milp ext) ll t (combinatorial_number_system_table n' 3) (idx_of k) vec else Ok vec) = Ok vec).
  { destruct check; [|reflexivity]. specialize (Hcc eq_refl).
    assert (TC : two_cocycle Rltb ll t (combinatorial_number_system_table n' 3) vec).
    { apply (two_cocycle_iff ll t n' 3 vec a Hsq); unfold ll; rewrite ?Ln; try lia; try assumption. }
    assert (IB : is_binomial (List.length ll) 3 (List.length vec)) by (unfold ll; rewrite Ln, Lv; apply comb_is_binomial).
    destruct (C16_is_two_cocycle Rltb ll t n' 3 vec Hsq ltac:(unfold ll; lia) ltac:(lia) IB) as (b & Eb & Hb).
    unfold repair_two. rewrite Eb. cbn [bind]. rewrite (proj2 Hb TC). reflexivity. }
  rewrite RP. cbn [bind]. fold g. rewrite Ed. cbn [bind].
  pose proof (sparse_integrate2_ok e r t f n N n' 3 vec g _ nu eta ML MD Hm (ec_pos _ _ _ _ Hc) ltac:(unfold r; lra) (ec_nonneg _ _ _ _ Hc) Hf E1 E2 H1 H2) as SI.
  rewrite EP in SI. cbn [fst snd] in SI. fold ll in SI. rewrite SI. cbn [bind]. rewrite LV.
  unfold cstored. cbn [cp_table cp_variance].
  destruct (ppca eigh _ n proj_dim m) as [[var X]|err]; reflexivity.
Qed.

(** Every sparse 2-cocycle has values on oriented triangles, and they are unique. *)
Theorem C46_values : forall n c, simplex_cocycle n 2 c ->
  (exists a, triangle_values c n a) /\
  forall a a', triangle_values c n a -> triangle_values c n a' ->
    forall i j k, (i < n)%nat -> (j < n)%nat -> (k < n)%nat -> a i j k = a' i j k.
Proof.
  intros n c Sc. pose proof Sc as (D1 & D2 & _).
  destruct (sparse_to_vector_ok Argsort.argsort_Z n 2 c n 2 (le_n _) (le_n _) D1 D2 Argsort.argsort_Z_ok) as (vec & EV & _).
  split.
  - exists (alt3 vec). exact (alt3_values _ n 2 n c vec (le_n _) (le_n _) Argsort.argsort_Z_ok Sc EV).
  - intros a a' Ha Ha' i j k Hi Hj Hk. destruct (vector_values _ n 2 n c vec (le_n _) (le_n _) Argsort.argsort_Z_ok Sc EV) as (_ & V).
    rewrite (V a Ha i j k Hi Hj Hk), (V a' Ha' i j k Hi Hj Hk). reflexivity.
Qed.
Print Assumptions C46_values.

Lemma phase_ext e r f n N a a' nu ball : (forall i j k, (i < n)%nat -> (j < n)%nat -> (k < n)%nat -> a i j k = a' i j k) -> (forall b, (b < N)%nat -> (ball b < n)%nat) ->
  phase_class_map e r f n N a nu ball = phase_class_map e r f n N a' nu ball.
Proof.
  intros H Hb. unfold phase_class_map. apply mk2_ext. intros b i Lb Li. destruct (unity_weight _ _ _ _ _); [|reflexivity]. do 3 f_equal. f_equal.
  unfold mean_phase. apply sumn_ext. intros t Lt. rewrite H by (auto; apply Hb; exact Lb). reflexivity.
Qed.

(** [get_coordinates] answers PPCA of the class map, whose rows are unit vectors (NaN outside
    the cover); another choice of covering landmarks multiplies the rows of the class map and of
    the answer by unit complex numbers.  The integer lift replaces the stored cocycle.  (For
    arrays of at most 10^6 bytes the class map consists of the roots of the weights: C47.) *)
Theorem C46_complex_projective : forall ext eigh globals self n N n' perc k birth death c l a f sr check proj_dim m,
  let e := cp_em self in let ll := em_dist_land_land e in
  sound_numpy ext -> em_consistent e n N 2 -> em_metric e -> (Z.of_nat n <= 2345)%Z ->
  (n <= n')%nat -> cp_table self = combinatorial_number_system_table n' 3 ->
  em_class e 2 k birth death c -> integer_lift (em_prime e) c l -> triangle_values l n a ->
  start_of birth sr <= death ->
  let t := (1 - perc) * start_of birth sr + perc * death in let r := t / 2 in
  (check = true -> tetrahedra_cocycle ll n t a) ->
  (forall d, 0 <= d < r -> 0 < f d r) ->
  exists nu ball store,
    (forall i j, nu j i = - nu i j) /\
    (least_squares (x_lsqr ext) -> best_integral ll t a nu) /\
    covering_choice e r n N ball /\
    class_lifted (em_prime e) 2 k (em_cocycles e) store /\
    let M ball := if (8 * (Z.of_nat N * Z.of_nat n) <=? 1000000)%Z then weights_class_map e r f n N else phase_class_map e r f n N a nu ball in
    complexprojective_get_coordinates ext eigh globals self perc k proj_dim f sr check m =
      cstored self (with_radius_lifted e r t store) (ppca eigh (M ball) n proj_dim m) /\
    (forall b, (b < N)%nat -> ((exists i, in_ball (em_dist_land_data e) r i b) -> unit_point (nth b (M ball) [])) /\
                      ((forall i, ~ in_ball (em_dist_land_data e) r i b) -> nan_point (nth b (M ball) []))) /\
    (tetrahedra_cocycle ll n t a -> forall ball', covering_choice e r n N ball' ->
      exists lams, List.length lams = N /\ Forall (fun l => cabs2 l = 1) lams /\ M ball' = scale_rows lams (M ball) /\
        ppca eigh (M ball') n proj_dim m = scaled_answer lams (ppca eigh (M ball) n proj_dim m)).
Proof.
  intros ext eigh globals self n N n' perc k birth death c l a f sr check proj_dim m e ll Hs Hc Hm Hn Hn' HT Hk HL0 Hv Hst t r Hcc Hf.
  destruct (complex_main ext eigh globals self n N n' perc k birth death c l a f sr check proj_dim m Hs Hc Hm Hn Hn' HT Hk HL0 Hv Hst Hcc Hf)
    as (vec & g & ball & store & Lv & Va & HL & CC & Hl & E).
  pose proof (ec_ll _ _ _ _ Hc) as ML. pose proof (ec_ld _ _ _ _ Hc) as MD. destruct (square_of _ _ ML) as [Hsq Ln].
  assert (Bl : forall b, (b < N)%nat -> (ball b < n)%nat) by (intros b Hb; apply (CC b Hb)).
  exists (alt2 g), ball, store. split; [intros; apply alt2_swap|]. split.
  { intros Hls. destruct (HL Hls) as [B1 B2]. split; [exact B1|]. intros nu'. specialize (B2 nu'). unfold triangle_sum in *.
    assert (Q : forall q : nat -> nat -> R, sumn (List.length ll) (fun k => sumn k (fun j => sumn j (fun i =>
        if Rlt_dec (at2 t ll i j) t then if Rlt_dec (at2 t ll i k) t then if Rlt_dec (at2 t ll j k) t then (IZR (a i j k) - (q i j + q j k - q i k)) ^ 2 else 0 else 0 else 0))) =
      sumn (List.length ll) (fun k => sumn k (fun j => sumn j (fun i =>
        if Rlt_dec (at2 t ll i j) t then if Rlt_dec (at2 t ll i k) t then if Rlt_dec (at2 t ll j k) t then (IZR (alt3 vec i j k) - (q i j + q j k - q i k)) ^ 2 else 0 else 0 else 0)))).
    { intros q. apply sumn_ext; intros k' Hk'; apply sumn_ext; intros j' Hj'; apply sumn_ext; intros i' Hi'. unfold ll in Hk'. rewrite Ln in Hk'. rewrite Va by lia. reflexivity. }
    rewrite !Q. exact B2. }
  split; [exact CC|]. split; [exact Hl|]. cbv zeta. fold (numba_freezes N n).
  split. { rewrite E. rewrite (phase_ext e r f n N a (alt3 vec)) by assumption. reflexivity. }
  split.
  - intros b Hb. destruct (numba_freezes N n).
    + rewrite weights_any. apply any_rows; auto. apply (ec_pos _ _ _ _ Hc). apply (ec_nonneg _ _ _ _ Hc).
    + unfold phase_class_map. apply (any_rows e r f n N (fun b i => 2 * PI * mean_phase e r f n a (alt2 g) (ball b) b i)); auto. apply (ec_pos _ _ _ _ Hc). apply (ec_nonneg _ _ _ _ Hc).
  - intros Hco ball' CC'. assert (Bl' : forall b, (b < N)%nat -> (ball' b < n)%nat) by (intros b Hb; apply (CC' b Hb)).
    assert (K : forall cm cm' lams, List.length lams = List.length cm -> Forall (fun l => cabs2 l = 1) lams -> cm' = scale_rows lams cm ->
      ppca eigh cm' n proj_dim m = scaled_answer lams (ppca eigh cm n proj_dim m)).
    { intros cm cm' lams L F ->. rewrite (C50_equivariant eigh cm n proj_dim m lams L F). reflexivity. }
    destruct (numba_freezes N n) eqn:NF.
    + exists (map (fun _ => c1) (seq 0 N)). 
      assert (Q : weights_class_map e r f n N = scale_rows (map (fun _ => c1) (seq 0 N)) (weights_class_map e r f n N)).
      { unfold weights_class_map at 2. rewrite scale_mk2. apply mk2_ext. intros b i _ _. destruct (unity_weight _ _ _ _ _); cbn [option_map]; [|reflexivity]. apply (f_equal (@Some C)); csolve. }
      assert (L : List.length (map (fun _ : nat => c1) (seq 0 N)) = N) by (rewrite map_length, seq_length; reflexivity).
      assert (F : Forall (fun l => cabs2 l = 1) (map (fun _ : nat => c1) (seq 0 N))) by (apply Forall_map, Forall_forall; intros; unfold cabs2, c1; cbn; ring).
      split; [exact L|]. split; [exact F|]. split; [exact Q|]. apply K; [|exact F|exact Q]. rewrite L. unfold weights_class_map. rewrite length_mk2. reflexivity.
    + exists (map (fun b => cis (2 * PI * mean_phase e r f n (alt3 vec) (alt2 g) (ball' b) b (ball b))) (seq 0 N)).
      match goal with |- context [List.length ?l = N] => set (lams := l) end.
      assert (L : List.length lams = N) by (unfold lams; rewrite map_length, seq_length; reflexivity).
      assert (F : Forall (fun l => cabs2 l = 1) lams) by (unfold lams; apply Forall_map, Forall_forall; intros; apply cabs2_cis).
      assert (Q : phase_class_map e r f n N a (alt2 g) ball' = scale_rows lams (phase_class_map e r f n N a (alt2 g) ball)).
      { rewrite (phase_ext e r f n N a (alt3 vec) (alt2 g) ball' Va Bl'), (phase_ext e r f n N a (alt3 vec) (alt2 g) ball Va Bl).
        apply phase_change; auto.
        - apply (ec_pos _ _ _ _ Hc).
        - apply (ec_nonneg _ _ _ _ Hc).
        - intros; apply alt2_swap.
        - intros; apply alt3_swap1.
        - intros; apply alt3_swap2.
        - intros b i1 i2 i3 i4 B1 B2 B3 B4.
          assert (TC : two_cocycle Rltb ll t (combinatorial_number_system_table n' 3) vec).
          { apply (two_cocycle_iff ll t n' 3 vec a Hsq); unfold ll; rewrite ?Ln; try lia; try assumption. }
          apply (cocycle_any ll t n' 3 vec (fun i => in_ball (em_dist_land_data e) r i b)); try assumption; unfold ll; rewrite ?Ln; try lia; try assumption.
          + intros i Bi. exact (in_ball_lt e n N r i b MD Bi).
          + intros i j Bi Bj. apply (balls_near e n N r t b i j ML MD Hm); [unfold r; lra|exact Bi|exact Bj]. }
      split; [exact L|]. split; [exact F|]. split; [exact Q|]. apply K; [|exact F|exact Q]. rewrite L. unfold phase_class_map. rewrite length_mk2. reflexivity.
Qed.
Print Assumptions C46_complex_projective.

(** A class that is too short is refused and the object is as before. *)
Theorem C46_short_class : forall ext eigh globals self perc k birth death c f sr check d m,
  em_class (cp_em self) 2 k birth death c -> death < start_of birth sr ->
  complexprojective_get_coordinates ext eigh globals self perc k d f sr check m = (self, Raise ClassTooShort).
Proof.
  intros ext eigh globals [e T v] perc k birth death c f sr check d m Hk H. unfold complexprojective_get_coordinates. cbn [cp_em cp_table cp_variance] in *.
  apply em_class2 in Hk. rewrite Hk, radius_fail by exact H. reflexivity.
Qed.
Print Assumptions C46_short_class.

(** A class whose lift is not a cocycle: the documented repair ends in NameError, with the
    stored cocycle already replaced by the lift. *)
Theorem C46_lift_fails : forall ext eigh self n N n' perc k birth death c l a f sr proj_dim m,
  let e := cp_em self in let ll := em_dist_land_land e in
  sound_numpy ext -> em_consistent e n N 2 -> (Z.of_nat n <= 2345)%Z ->
  (n <= n')%nat -> cp_table self = combinatorial_number_system_table n' 3 ->
  em_class e 2 k birth death c -> integer_lift (em_prime e) c l -> triangle_values l n a ->
  start_of birth sr <= death ->
  let t := (1 - perc) * start_of birth sr + perc * death in
  ~ tetrahedra_cocycle ll n t a ->
  (* less than 2^31 tetrahedra *)
  (forall L, NoDup L -> (forall s, In s L -> rips Rltb ll t 3 s) -> (Z.of_nat (List.length L) <= 2 ^ 31)%Z) ->
  exists store, class_lifted (em_prime e) 2 k (em_cocycles e) store /\
    complexprojective_get_coordinates ext eigh complexprojectivecoords_globals self perc k proj_dim f sr true m =
      (mkCProj (with_radius_lifted e (t / 2) t store) (cp_table self) (cp_variance self), Raise NameError).
Proof.
  intros ext eigh [e T v] n N n' perc k birth death c l a f sr proj_dim m e0 ll [Ha Hlen] Hc Hn Hn' HT Hk HL0 Hv Hst t Hcc Htet. apply integer_lift_ok in HL0. subst l.
  cbn [cp_em cp_table] in e0, HT. subst e0 T.
  pose proof (ec_landmarks _ _ _ _ Hc) as Hl. pose proof (ec_ll _ _ _ _ Hc) as ML. destruct (square_of _ _ ML) as [Hsq Ln].
  pose proof (class_simplex _ n N 2 k birth death c Hc Hk) as Sc. apply (lift_simplex n 2 (em_prime e)) in Sc.
  unfold complexprojective_get_coordinates. cbn [cp_em cp_table cp_variance].
  apply em_class2 in Hk. pose proof Hk as Hk'. rewrite Hk. rewrite radius_ok by exact Hst. fold t.
  set (e1 := with_radius e (t / 2) t).
  assert (Hc1 : em_consistent e1 n N 2) by (destruct Hc; constructor; assumption).
  destruct (get_covering_partition e1 (t / 2) f) as [varphi ball] eqn:EP.
  change (em_dist_land_land e1) with ll.
  destruct (make_delta1 Rltb (x_junk ext) ll t (combinatorial_number_system_table n' 3)) as [M|] eqn:EM.
  2:{ rewrite (delta1_ok Rltb (x_junk ext) ll t n' 3 Hsq) in EM; [discriminate|unfold ll; lia|lia|apply tri_fit; unfold ll; rewrite Ln; exact Hn]. }
  destruct (lift_class e1 n N 2 k birth death c Hc1) as (store & El & Hst'); [apply em_class2; exact Hk'|].
  change (Z.of_nat 2) with 2%Z in El. rewrite El. exists store. split; [exact Hst'|].
  destruct (sparse_cocycle_to_vector (x_argsort ext) (lift_to_integer_cocycle (em_prime e) c) (combinatorial_number_system_table n' 3) n) as [vec|] eqn:EV.
  2:{ destruct Sc as (D1 & D2 & _). destruct (sparse_to_vector_ok (x_argsort ext) n 2 _ n' 3 Hn' ltac:(lia) D1 D2 Ha) as (v' & Q & _). congruence. }
  destruct (vector_values (x_argsort ext) n' 3 n _ vec Hn' ltac:(lia) Ha Sc EV) as (Lv & Va). specialize (Va a Hv).
  unfold complex_coordinates. cbn [set_cocycles em_prime em_n_landmarks em_dist_land_land]. change (em_prime e1) with (em_prime e). change (em_n_landmarks e1) with (em_n_landmarks e).
  change (em_dist_land_land e1) with ll. rewrite Hl, EV. cbn [bind].
  assert (IB : is_binomial (List.length ll) 3 (List.length vec)) by (unfold ll; rewrite Ln, Lv; apply comb_is_binomial).
  destruct (C21_repair_raises_NameError Rltb ll t n' 3 (em_prime e) vec (x_milp ext) (x_junk ext) (idx_of k) Hsq ltac:(unfold ll; lia) ltac:(lia) ltac:(unfold ll; lia) Htet IB) as [_ RP].
  rewrite RP; [reflexivity|]. intros TC. apply Hcc. apply (two_cocycle_iff ll t n' 3 vec a Hsq) in TC; unfold ll; rewrite ?Ln in *; try lia; try assumption.
  unfold ll in TC; rewrite Ln in TC; exact TC.
Qed.
Print Assumptions C46_lift_fails.

(** The constructor, from a ripser answer of the expected form. *)
Theorem C46_constructor :
  forall argsort ripser X n_landmarks dm prime maxdim N d r dist,
  (forall l, is_argsort Rle 0%R l (argsort l)) ->
  documented_input X dm N d -> (2 <= maxdim)%Z -> (2 <= prime)%Z ->
  ripser (given_to_ripser X dm) dm prime maxdim n_landmarks = Ok r ->
  ripser_contract N (Z.to_nat maxdim) r -> (Z.of_nat (List.length (r_idx_perm r)) <= n_landmarks)%Z ->
  (forall cs c, nth_error (r_cocycles r) 2 = Some cs -> In c cs -> c_dim c = 2%nat /\
     (forall row, In row (c_rows c) -> List.length (fst row) = 3%nat /\ NoDup (fst row)) /\
     ForallOrdPairs (fun row row' => ~ Permutation (fst row) (fst row')) (c_rows c)) ->
  landmark_distances X dm N d r dist -> (forall i b y, entry dist i b y -> 0 <= y) ->
  exists self n', complexprojective_init argsort ripser X n_landmarks dm prime maxdim = Ok self /\
    em_prime (cp_em self) = prime /\
    (List.length (r_idx_perm r) <= n')%nat /\ cp_table self = combinatorial_number_system_table n' 3 /\
    em_consistent (cp_em self) (List.length (r_idx_perm r)) (n_data dm N d) 2 /\
    ((forall i j vi vj y, nth_error (r_idx_perm r) i = Some vi -> nth_error (r_idx_perm r) j = Some vj ->
        entry dist i (Z.to_nat vj) y -> entry dist j (Z.to_nat vi) y) ->
     (forall i j vj b y d1 d2, nth_error (r_idx_perm r) j = Some vj ->
        entry dist i (Z.to_nat vj) y -> entry dist i b d1 -> entry dist j b d2 -> y <= d1 + d2) ->
     em_metric (cp_em self)).
Proof.
  intros argsort ripser X nl dm prime maxdim N d r dist Ha Hin Hm Hp Er Hc Hnl Hcoc Ed Hnn.
  destruct (C44_constructor argsort ripser X nl dm prime maxdim N d r dist 2 Ha Hin ltac:(lia) ltac:(lia) Hp Er Hc Hcoc Ed Hnn) as (e & E & _ & _ & P & C1 & C2).
  exists (mkCProj e (combinatorial_number_system_table (Z.to_nat nl) 3) None), (Z.to_nat nl).
  split; [unfold complexprojective_init; rewrite E; reflexivity|]. split; [exact P|]. split; [lia|]. split; [reflexivity|]. split; assumption.
Qed.
Print Assumptions C46_constructor.

(** For arrays of at most 10^6 bytes the class is ignored: two objects that differ in the
    cocycle of the class only give the same answer. *)
Theorem C47_small_data_ignores_class : forall ext ext' eigh globals globals' self self' n N n1 n1' perc k k' birth death c c' l l' a a' f sr check check' proj_dim m,
  let e := cp_em self in let ll := em_dist_land_land e in
  sound_numpy ext -> em_consistent e n N 2 -> em_metric e -> (Z.of_nat n <= 2345)%Z ->
  (n <= n1)%nat -> cp_table self = combinatorial_number_system_table n1 3 ->
  em_class e 2 k birth death c -> integer_lift (em_prime e) c l -> triangle_values l n a ->
  sound_numpy ext' -> em_consistent (cp_em self') n N 2 ->
  em_dist_land_land (cp_em self') = ll -> em_dist_land_data (cp_em self') = em_dist_land_data e ->
  (n <= n1')%nat -> cp_table self' = combinatorial_number_system_table n1' 3 ->
  em_class (cp_em self') 2 k' birth death c' -> integer_lift (em_prime (cp_em self')) c' l' -> triangle_values l' n a' ->
  start_of birth sr <= death ->
  let t := (1 - perc) * start_of birth sr + perc * death in let r := t / 2 in
  (check = true -> tetrahedra_cocycle ll n t a) -> (check' = true -> tetrahedra_cocycle ll n t a') ->
  (forall d, 0 <= d < r -> 0 < f d r) ->
  (8 * (Z.of_nat N * Z.of_nat n) <= 1000000)%Z ->
  snd (complexprojective_get_coordinates ext' eigh globals' self' perc k' proj_dim f sr check' m) =
  snd (complexprojective_get_coordinates ext eigh globals self perc k proj_dim f sr check m).
Proof.
  intros ext ext' eigh globals globals' self self' n N n1 n1' perc k k' birth death c c' l l' a a' f sr check check' proj_dim m e ll
    Hs Hc Hm Hn Hn1 HT Hk Hl Hv Hs' Hc' Ell Eld Hn1' HT' Hk' Hl' Hv' Hst t r Hcc Hcc' Hf Hsmall.
  destruct (complex_main ext eigh globals self n N n1 perc k birth death c l a f sr check proj_dim m Hs Hc Hm Hn Hn1 HT Hk Hl Hv Hst Hcc Hf)
    as (vec & g & ball & store & _ & _ & _ & _ & _ & E).
  assert (Hm' : em_metric (cp_em self')) by (unfold em_metric; rewrite Ell, Eld; exact Hm).
  rewrite <- Ell in Hcc'.
  destruct (complex_main ext' eigh globals' self' n N n1' perc k' birth death c' l' a' f sr check' proj_dim m Hs' Hc' Hm' Hn Hn1' HT' Hk' Hl' Hv' Hst Hcc' Hf)
    as (vec' & g' & ball' & store' & _ & _ & _ & _ & _ & E').
  unfold numba_freezes in E, E'. rewrite (proj2 (Z.leb_le _ _) Hsmall) in E, E'. rewrite E, E'.
  assert (W : weights_class_map (cp_em self') r f n N = weights_class_map e r f n N).
  { unfold weights_class_map. rewrite Eld. reflexivity. }
  fold t. fold r. rewrite W. unfold cstored. fold e. destruct (ppca eigh (weights_class_map e r f n N) n proj_dim m) as [[var X]|err]; reflexivity.
Qed.
Print Assumptions C47_small_data_ignores_class.

(** The documented class map, made of the integrated phases, is the one used for arrays of more
    than 10^6 bytes; for smaller ones all phases are replaced by zero. *)
Theorem C47_documented_map : forall ext eigh globals self n N n' perc k birth death c l a f sr check proj_dim m,
  let e := cp_em self in let ll := em_dist_land_land e in
  sound_numpy ext -> least_squares (x_lsqr ext) -> em_consistent e n N 2 -> em_metric e -> (Z.of_nat n <= 2345)%Z ->
  (n <= n')%nat -> cp_table self = combinatorial_number_system_table n' 3 ->
  em_class e 2 k birth death c -> integer_lift (em_prime e) c l -> triangle_values l n a ->
  start_of birth sr <= death ->
  let t := (1 - perc) * start_of birth sr + perc * death in let r := t / 2 in
  (check = true -> tetrahedra_cocycle ll n t a) ->
  (forall d, 0 <= d < r -> 0 < f d r) ->
  let answer cm := match ppca eigh cm n proj_dim m with Ok (_, X) => Ok X | Raise err => Raise err end in
  let call := snd (complexprojective_get_coordinates ext eigh globals self perc k proj_dim f sr check m) in
  ((1000000 < 8 * (Z.of_nat N * Z.of_nat n))%Z ->
     exists nu ball, best_integral ll t a nu /\ covering_choice e r n N ball /\ call = answer (phase_class_map e r f n N a nu ball)) /\
  ((8 * (Z.of_nat N * Z.of_nat n) <= 1000000)%Z -> call = answer (weights_class_map e r f n N)).
Proof.
  intros ext eigh globals self n N n' perc k birth death c l a f sr check proj_dim m e ll Hs HL Hc Hm Hn Hn' HT Hk Hl Hv Hst t r Hcc Hf answer call.
  destruct (C46_complex_projective ext eigh globals self n N n' perc k birth death c l a f sr check proj_dim m Hs Hc Hm Hn Hn' HT Hk Hl Hv Hst Hcc Hf)
    as (nu & ball & store & _ & B & CC & _ & E & _).
  split; intros Hsize.
  - exists nu, ball. split; [apply B, HL|]. split; [exact CC|]. unfold call. rewrite E. rewrite (proj2 (Z.leb_gt _ _) Hsize). clear E. unfold cstored, answer. fold e t r.
    destruct (ppca eigh _ n proj_dim m) as [[var X]|err]; reflexivity.
  - unfold call. rewrite E. rewrite (proj2 (Z.leb_le _ _) Hsize). clear E. unfold cstored, answer. fold e t r.
    destruct (ppca eigh _ n proj_dim m) as [[var X]|err]; reflexivity.
Qed.
Print Assumptions C47_documented_map.

(** An instance: the six vertices of an octahedron and a point inside a face, over three balls;
    the class of the sphere. *)
Definition octa_ll : list (list R) :=
  [[0; 2; 1; 1; 1; 1]; [2; 0; 1; 1; 1; 1]; [1; 1; 0; 2; 1; 1]; [1; 1; 2; 0; 1; 1]; [1; 1; 1; 1; 0; 2]; [1; 1; 1; 1; 2; 0]].
Definition octa_ld : list (list R) :=
  [[0; 2; 1; 1; 1; 1; 5/8]; [2; 0; 1; 1; 1; 1; 11/8]; [1; 1; 0; 2; 1; 1; 5/8]; [1; 1; 2; 0; 1; 1; 11/8]; [1; 1; 1; 1; 0; 2; 5/8]; [1; 1; 1; 1; 2; 0; 11/8]].
Definition octa_cocycle (v : Z) : cocycle := mkCocycle 2 [([0; 2; 4]%Z, v)].
Definition octa (v : Z) : cproj :=
  mkCProj (mkEM 3 [[]; []; [(1, 2)]] [0; 1; 2; 3; 4; 5]%Z 6 octa_ld (5/8) octa_ll [[]; []; [octa_cocycle v]] None None)
    (combinatorial_number_system_table 6 3) None.
Ltac upto6 i H := destruct i as [|[|[|[|[|[|i]]]]]]; [..|exfalso; clear - H; lia].
Ltac upto7 i H := destruct i as [|[|[|[|[|[|[|i]]]]]]]; [..|exfalso; clear - H; lia].
Lemma octa_ll_matrix : matrix 6 6 octa_ll.
Proof. split; [reflexivity|repeat constructor]. Qed.
Lemma octa_ld_matrix : matrix 6 7 octa_ld.
Proof. split; [reflexivity|repeat constructor]. Qed.
Lemma octa_consistent v : em_consistent (cp_em (octa v)) 6 7 2.
Proof.
  constructor; cbn [octa cp_em em_n_landmarks em_dist_land_land em_dist_land_data em_prime em_dgms em_cocycles];
    [reflexivity|lia|apply octa_ll_matrix|apply octa_ld_matrix| |lia|].
  - intros i b x H. apply (entry_at _ _ _ _ _ _ octa_ld_matrix) in H as (Hi & Hb & ->). upto6 i Hi; upto7 b Hb; unfold at2; cbn [octa_ld nth]; lra.
  - exists [(1, 2)], [octa_cocycle v]. repeat split; try reflexivity. repeat constructor; cbn; try lia; intuition lia.
Qed.
Lemma octa_metric v : em_metric (cp_em (octa v)).
Proof.
  split; cbn [octa cp_em em_dist_land_land em_dist_land_data].
  - intros i j d H. apply (entry_at _ _ _ _ _ _ octa_ll_matrix) in H as (Hi & Hj & ->). upto6 i Hi; upto6 j Hj; unfold at2, entry; cbn [octa_ll nth]; eexists; split; reflexivity.
  - intros i j b d d1 d2 H H1 H2. apply (entry_at _ _ _ _ _ _ octa_ll_matrix) in H as (Hi & Hj & ->).
    apply (entry_at _ _ _ _ _ _ octa_ld_matrix) in H1 as (_ & Hb & ->). apply (entry_at _ _ _ _ _ _ octa_ld_matrix) in H2 as (_ & _ & ->).
    upto6 i Hi; upto6 j Hj; upto7 b Hb; unfold at2; cbn [octa_ll octa_ld nth]; lra.
Qed.
Lemma octa_class v : em_class (cp_em (octa v)) 2 (PyInt 0) 1 2 (octa_cocycle v).
Proof. apply em_class2. reflexivity. Qed.
Lemma octa_no_tetrahedron a : tetrahedra_cocycle octa_ll 6 (3/2) a.
Proof.
  intros i j k l H1 H2 Hd. exfalso.
  assert (F : forall u v, In u [i; j; k; l] -> In v [i; j; k; l] -> (u < v)%nat -> at2 0 octa_ll u v < 3/2).
  { intros u v Iu Iv L. apply (Hd u v _ Iu Iv L). assert (u < 6 /\ v < 6)%nat as [Hu Hv] by (cbn [In] in Iu, Iv; lia). clear - Hu Hv.
    upto6 u Hu; upto6 v Hv; unfold at2, entry; cbn [octa_ll nth]; eexists; split; reflexivity. }
  assert (P : (In 0%nat [i; j; k; l] /\ In 1%nat [i; j; k; l]) \/ (In 2%nat [i; j; k; l] /\ In 3%nat [i; j; k; l]) \/ (In 4%nat [i; j; k; l] /\ In 5%nat [i; j; k; l])).
  { cbn [In]. lia. }
  destruct P as [[A B]|[[A B]|[A B]]]; specialize (F _ _ A B ltac:(lia)); unfold at2 in F; cbn [octa_ll nth] in F; lra.
Qed.
Lemma octa_choice j : (j < 3)%nat -> covering_choice (cp_em (octa 1)) (3/4) 6 7 (fun b => if (b <? 6)%nat then b else (2 * j)%nat).
Proof.
  intros Hj b Hb. cbn [octa cp_em em_dist_land_data]. assert (G : in_ball octa_ld (3/4) (if (b <? 6)%nat then b else (2 * j)%nat) b).
  { assert (Y : forall d, entry octa_ld (if (b <? 6)%nat then b else (2 * j)%nat) b d -> d < 3/4 -> in_ball octa_ld (3/4) (if (b <? 6)%nat then b else (2 * j)%nat) b) by (intros d H1 H2; exists d; split; assumption).
    upto7 b Hb; cbn in *; [..|destruct j as [|[|[|j]]]; [..|lia]]; eapply Y; try (eexists; split; reflexivity); lra. }
  split; [|intros _; exact G]. destruct (Nat.ltb_spec b 6); lia.
Qed.
Example octa_complex : let self := octa 1 in let e := cp_em self in
  (exists ext, sound_numpy ext /\ least_squares (x_lsqr ext)) /\
  em_consistent e 6 7 2 /\ em_metric e /\ cp_table self = combinatorial_number_system_table 6 3 /\
  em_class e 2 (PyInt 0) 1 2 (octa_cocycle 1) /\
  (exists l a, integer_lift 3 (octa_cocycle 1) l /\ triangle_values l 6 a /\ a 0%nat 2%nat 4%nat = 1%Z /\ a 4%nat 2%nat 0%nat = (-1)%Z /\
     tetrahedra_cocycle (em_dist_land_land e) 6 ((1 - 1/2) * start_of 1 false + 1/2 * 2) a) /\
  start_of 1 false <= 2 /\ (forall d, 0 <= d < 3/4 -> 0 < pu_linear d (3/4)) /\
  covering_choice e (3/4) 6 7 (fun b => if (b <? 6)%nat then b else 0%nat) /\
  covering_choice e (3/4) 6 7 (fun b => if (b <? 6)%nat then b else 4%nat).
Proof.
  split. { exists (mkExt Argsort.argsort_Z (fun _ _ => None) lsq (fun m => Ok m) (fun _ => 0%Z) 0). split; [|exact lsq_least_squares].
    split; [exact Argsort.argsort_Z_ok|]. intros A b. unfold x_lsqr, lsq. rewrite map_length, seq_length. reflexivity. }
  split; [apply octa_consistent|]. split; [apply octa_metric|]. split; [reflexivity|]. split; [apply octa_class|]. split.
  { assert (Sc : simplex_cocycle 6 2 (lift_to_integer_cocycle 3 (octa_cocycle 1))).
    { apply lift_simplex. apply (class_simplex _ 6 7 2 (PyInt 0) 1 2 _ (octa_consistent 1) (octa_class 1)). }
    destruct (C46_values 6 _ Sc) as ((a & Ha) & _). exists (lift_to_integer_cocycle 3 (octa_cocycle 1)), a. split; [apply integer_lift_ok; reflexivity|]. split; [exact Ha|]. destruct Ha as (A1 & A2 & V & _).
    assert (E : a 0%nat 2%nat 4%nat = 1%Z) by (apply V; left; reflexivity). split; [exact E|]. split.
    - pose proof (A1 2%nat 4%nat 0%nat). pose proof (A2 2%nat 0%nat 4%nat). pose proof (A1 0%nat 2%nat 4%nat). lia.
    - unfold start_of. replace ((1 - 1/2) * 1 + 1/2 * 2) with (3/2) by lra. apply octa_no_tetrahedron. }
  split; [unfold start_of; lra|]. split; [intros d H; unfold pu_linear; lra|]. split; [apply (octa_choice 0); lia|apply (octa_choice 2); lia].
Qed.
(** Two classes, one of them zero, for which C47_small_data_ignores_class gives the same answer. *)
Example octa_ignored : em_consistent (cp_em (octa 1)) 6 7 2 /\ em_consistent (cp_em (octa 0)) 6 7 2 /\
  em_class (cp_em (octa 1)) 2 (PyInt 0) 1 2 (octa_cocycle 1) /\ em_class (cp_em (octa 0)) 2 (PyInt 0) 1 2 (octa_cocycle 0) /\
  em_dist_land_land (cp_em (octa 0)) = em_dist_land_land (cp_em (octa 1)) /\ em_dist_land_data (cp_em (octa 0)) = em_dist_land_data (cp_em (octa 1)) /\
  (8 * (7 * 6) <= 1000000)%Z.
Proof. split; [apply octa_consistent|]. split; [apply octa_consistent|]. split; [apply octa_class|]. split; [apply octa_class|]. repeat split; try reflexivity. lia. Qed.

(** Four points at distance 1 and a cocycle mod 3 whose lift is not an integer cocycle. *)
Definition tetra_ll : list (list R) := [[0; 1; 1; 1]; [1; 0; 1; 1]; [1; 1; 0; 1]; [1; 1; 1; 0]].
Definition tetra_cocycle : cocycle := mkCocycle 2 [([1; 2; 3]%Z, 1%Z); ([0; 2; 3]%Z, 2%Z); ([0; 1; 3]%Z, 1%Z)].
Definition tetra : em := mkEM 3 [[]; []; [(1, 2)]] [0; 1; 2; 3]%Z 4 tetra_ll 0 tetra_ll [[]; []; [tetra_cocycle]] None None.
Example tetra_lift_fails : em_consistent tetra 4 4 2 /\ em_class tetra 2 (PyInt 0) 1 2 tetra_cocycle /\
  forall l a, integer_lift 3 tetra_cocycle l -> triangle_values l 4 a ->
    (a 1%nat 2%nat 3%nat - a 0%nat 2%nat 3%nat + a 0%nat 1%nat 3%nat - a 0%nat 1%nat 2%nat = 3)%Z /\ ~ tetrahedra_cocycle tetra_ll 4 (3/2) a.
Proof.
  assert (Mx : matrix 4 4 tetra_ll) by (split; [reflexivity|repeat constructor]).
  split. { constructor; cbn [tetra em_n_landmarks em_dist_land_land em_dist_land_data em_prime em_dgms em_cocycles]; [reflexivity|lia|exact Mx|exact Mx| |lia|].
    - intros i b x H. apply (entry_at _ _ _ _ _ _ Mx) in H as (Hi & Hb & ->). upto4 i Hi; upto4 b Hb; unfold at2; cbn [tetra_ll nth]; lra.
    - exists [(1, 2)], [tetra_cocycle]. split; [reflexivity|]. split; [reflexivity|]. split; [reflexivity|]. constructor; [|constructor]. split; [reflexivity|]. split.
      + repeat constructor; cbn; try lia; intuition lia.
      + repeat constructor; cbn [fst]; intros P; apply three_perm in P; intuition discriminate. }
  split; [apply em_class2; reflexivity|]. intros l a Hl (A1 & A2 & V & Z0). apply integer_lift_ok in Hl; subst l.
  assert (E1 : a 1%nat 2%nat 3%nat = 1%Z) by (apply V; left; reflexivity).
  assert (E2 : a 0%nat 2%nat 3%nat = (-1)%Z) by (apply V; right; left; reflexivity).
  assert (E3 : a 0%nat 1%nat 3%nat = 1%Z) by (apply V; right; right; left; reflexivity).
  assert (E4 : a 0%nat 1%nat 2%nat = 0%Z).
  { apply Z0; try lia. intros vs v I P. cbn in I. destruct I as [I|[I|[I|[]]]]; injection I as <- _; apply three_perm in P; intuition discriminate. }
  rewrite E1, E2, E3, E4. split; [reflexivity|]. intros T. specialize (T 0%nat 1%nat 2%nat 3%nat ltac:(lia) ltac:(lia)).
  rewrite E1, E2, E3, E4 in T. enough (1 - -1 + 1 - 0 = 0)%Z by lia. apply T. intros u v x Iu Iv L Ex. apply (entry_at _ _ _ _ _ _ Mx) in Ex as (Hu & Hv & ->).
  upto4 u Hu; upto4 v Hv; try (exfalso; clear - L; lia); unfold at2; cbn [tetra_ll nth]; lra.
Qed.
