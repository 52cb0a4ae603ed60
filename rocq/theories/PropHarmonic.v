(** PropHarmonic.v -- C52 (harmonic representatives), C33 (when coordinates are returned),
    C39 (the stored Gram matrices). *)
From Coq Require Import Sorted Permutation Relations.
From Verif Require Import Base BaseProofs CombinatorialModel SpecSimplex CombinatorialProofs
  DeltaModel SpecRips RipsProofs DeltaProofs DeltaFacts RealBase RealSum SpecRepair RepairModel RepairProofs
  EMModel SpecEM EMProofs CircleModel SpecCircle CircleProofs LLLModel SpecLLL LLLProofs
  CohomologyModel SpecCohomology CohomologyProofs PropDelta PropRepair PropCohomology PropEM PropCircle PropLLL
  ToroidalModel SpecToroidal ToroidalProofs ToroidalFacts ToroidalCalls SpecHarmonic HarmonicProofs ToroidalTotal.
Local Open Scope R_scope.

Lemma nth_IZR r (c : list Z) : nth r (map IZR c) 0 = IZR (nth r c 0%Z).
Proof. change 0 with (IZR 0%Z); apply map_nth. Qed.

(** C52: the harmonic representative computed for an integer cochain [c] (a cochain written as
    a vector over the edges) differs from [c] by the coboundary of the integral, is orthogonal
    to all coboundaries, and has least energy among [c] minus coboundaries. *)
Theorem C52_harmonic_representative :
  forall x n N ext t c,
  consistent x n N -> least_squares (x_lsqr ext) -> is_binomial n 2 (length c) ->
  let dm := em_dist_land_land (t_em x) in let T := t_table x in
  exists delta0 W h g,
    make_delta0 Rltb (x_junk ext) dm t T = Ok delta0 /\ make_inner_product Rltb (x_junk ext) dm t T = Ok W /\
    integrate_harmonic_representative (x_lsqr ext) c delta0 (snd W) = Ok (h, g) /\
    (forall i j, (i < j < n)%nat -> close Rltb dm t i j ->
       edge_value T h i j = edge_value T (map IZR c) i j - (nth i g 0 - nth j g 0)) /\
    (forall y : nat -> R, edge_sum dm t (fun i j => edge_value T h i j * (y i - y j)) = 0) /\
    (forall y : nat -> R, edge_sum dm t (fun i j => edge_value T h i j ^ 2) <=
       edge_sum dm t (fun i j => (edge_value T (map IZR c) i j - (y i - y j)) ^ 2)).
Proof.
  intros x n N ext t c C HL Hc dm T. apply is_binomial_comb in Hc.
  destruct (matrices_ok x n N ext C t) as (M0 & W & E0 & EW).
  destruct (sq_ll x n N C) as [Sq L]. destruct (co_table _ _ _ C) as (n' & Hn' & ET). pose proof (co_pos _ _ _ C) as Hp.
  fold dm T in E0, EW, Sq, L, ET. rewrite ET in E0, EW.
  assert (Hn1 : (length dm <= n')%nat) by lia. assert (Hn2 : (Z.of_nat (length dm) <= 65536)%Z) by lia. assert (HD : (1 <= 2)%nat) by lia.
  assert (Lc : length c = comb (length dm) 2) by congruence.
  destruct (harmonic_ok dm t n' 2 Sq Hn1 HD Hn2 (x_junk ext) M0 W E0 EW (x_lsqr ext) HL c Lc) as (h & g & Ei & Lg & Lh & Hh & Hmin).
  pose proof (harmonic_orthogonal dm t n' 2 Sq Hn1 HD Hn2 (x_junk ext) M0 W E0 EW (x_lsqr ext) HL c h g Lc Ei) as Ho.
  exists M0, W, h, g. rewrite ET. split; [exact E0|]. split; [exact EW|]. split; [exact Ei|].
  assert (V : forall (v : list R) i j, (i < j < length dm)%nat -> edge_value (combinatorial_number_system_table n' 2) v i j = nth (rank [i; j]) v 0).
  { intros v i j Hij; apply (edge_value_rank dm n' 2); assumption. }
  split; [|split].
  - intros i j Hij Hcl. rewrite !V by lia. rewrite nth_IZR, (Hh i j) by lia. apply closeb_close in Hcl; rewrite Hcl; reflexivity.
  - intros y. rewrite <- (Ho y). apply (edge_sum_ext dm t n' 2 Sq Hn1 HD). intros i j Hij _. rewrite V by exact Hij; reflexivity.
  - intros y. rewrite (edge_sum_ext dm t n' 2 Sq Hn1 HD _ (fun i j => nth (rank [i; j]) h 0 ^ 2)) by (intros i j Hij _; rewrite V by exact Hij; reflexivity).
    rewrite (edge_sum_ext dm t n' 2 Sq Hn1 HD (fun i j => (edge_value _ _ i j - _) ^ 2) (fun i j => (IZR (nth (rank [i; j]) c 0%Z) - (y i - y j)) ^ 2)); [apply Hmin|].
    intros i j Hij _; rewrite V, nth_IZR by exact Hij; reflexivity.
Qed.
Print Assumptions C52_harmonic_representative.

Lemma connected_const dm t (k : nat -> R) : square dm ->
  (forall i j, (i < j < length dm)%nat -> close Rltb dm t i j -> k i = k j) ->
  forall i j, connected dm t i j -> k i = k j.
Proof.
  intros Sq H i j Hc. induction Hc as [i j [Hij Hc]| |i j _ IH|i j l _ IH1 _ IH2]; [|reflexivity|congruence|congruence].
  apply H; [|exact Hc]. split; [exact Hij|]. destruct Hc as (row & d & E1 & E2 & _).
  apply nth_error_In in E1 as I1. unfold square in Sq; rewrite Forall_forall in Sq. rewrite <- (Sq row I1). apply (some_lt _ _ _ E2).
Qed.

(** C52: cohomologous integer cochains have the same harmonic representative on the complex,
    and their circle-valued maps differ by rotations constant on connected components. *)
Theorem C52_cohomologous_cochains :
  forall x n N ext t f c c' (k : nat -> Z) delta0 W h g h' g' row row',
  consistent x n N -> metric x -> least_squares (x_lsqr ext) -> bump f (t / 2) ->
  is_binomial n 2 (length c) -> is_binomial n 2 (length c') ->
  let dm := em_dist_land_land (t_em x) in let T := t_table x in
  (forall i j, (i < j < n)%nat -> close Rltb dm t i j ->
     edge_value T (map IZR c') i j = edge_value T (map IZR c) i j + IZR (k i - k j)) ->
  make_delta0 Rltb (x_junk ext) dm t T = Ok delta0 -> make_inner_product Rltb (x_junk ext) dm t T = Ok W ->
  integrate_harmonic_representative (x_lsqr ext) c delta0 (snd W) = Ok (h, g) ->
  integrate_harmonic_representative (x_lsqr ext) c' delta0 (snd W) = Ok (h', g') ->
  let p := get_covering_partition (t_em x) (t / 2) f in
  sparse_integrate h g (fst p) (snd p) dm t T = Ok row ->
  sparse_integrate h' g' (fst p) (snd p) dm t T = Ok row' ->
  (forall i j, (i < j < n)%nat -> close Rltb dm t i j -> edge_value T h' i j = edge_value T h i j) /\
  exists rotation : nat -> R,
    (forall i j, connected dm t i j -> rotation i = rotation j) /\
    forall b j v v', in_ball (em_dist_land_data (t_em x)) (t / 2) j b ->
      nth_error row b = Some v -> nth_error row' b = Some v' ->
      exists a a', v = Some a /\ v' = Some a' /\ same_angle a' (a + rotation j).
Proof.
  intros x n N ext t f c c' k M0 W h g h' g' row row' C Me HL Hf Hc Hc' dm T Hk E0 EW Ei Ei' p Er Er'.
  apply is_binomial_comb in Hc, Hc'.
  destruct (sq_ll x n N C) as [Sq L]. destruct (co_table _ _ _ C) as (n' & Hn' & ET). pose proof (co_pos _ _ _ C) as Hp.
  fold dm in Sq, L.
  pose proof E0 as E0'. pose proof EW as EW'. unfold T in E0', EW', Hk |- *. rewrite ET in E0', EW', Hk |- *.
  assert (Hn1 : (length dm <= n')%nat) by lia. assert (Hn2 : (Z.of_nat (length dm) <= 65536)%Z) by lia. assert (HD : (1 <= 2)%nat) by lia.
  assert (Lc : length c = comb (length dm) 2) by congruence. assert (Lc' : length c' = comb (length dm) 2) by congruence.
  assert (V : forall (v : list R) i j, (i < j < length dm)%nat -> edge_value (combinatorial_number_system_table n' 2) v i j = nth (rank [i; j]) v 0).
  { intros v i j Hij; apply (edge_value_rank dm n' 2); assumption. }
  destruct (harmonic_unique dm t n' 2 Sq Hn1 HD Hn2 (x_junk ext) M0 W E0' EW' (x_lsqr ext) HL c c' h g h' g' k Lc Lc' Ei Ei') as [H1 H2].
  { intros i j Hij Hcl. specialize (Hk i j ltac:(lia) Hcl). rewrite !V, !nth_IZR, <- plus_IZR in Hk by exact Hij. apply eq_IZR in Hk; exact Hk. }
  destruct (harmonic_ok dm t n' 2 Sq Hn1 HD Hn2 (x_junk ext) M0 W E0' EW' (x_lsqr ext) HL c Lc) as (h1 & g1 & Q & Lg & Lh & _). rewrite Ei in Q; injection Q as <- <-.
  destruct (harmonic_ok dm t n' 2 Sq Hn1 HD Hn2 (x_junk ext) M0 W E0' EW' (x_lsqr ext) HL c' Lc') as (h1 & g1 & Q & Lg' & Lh' & _). rewrite Ei' in Q; injection Q as <- <-.
  split; [intros i j Hij Hcl; rewrite !V by lia; apply H1; [lia|exact Hcl]|].
  set (kap := fun i => nth i g' 0 - nth i g 0 - IZR (k i)).
  assert (Kc : forall i j, connected dm t i j -> kap i = kap j).
  { apply (connected_const dm t kap Sq). intros i j Hij Hcl. apply (H2 i j Hij Hcl). }
  exists (fun i => 2 * PI * kap i). split; [intros i j Hij; rewrite (Kc i j Hij); reflexivity|].
  destruct (row_ok x n N C f (t / 2) t Hf h g ltac:(congruence) ltac:(congruence)) as (r1 & Q1 & _ & R1). unfold p in Er, Er'. unfold T, dm in Er, Er'. rewrite Er in Q1; injection Q1 as <-.
  destruct (row_ok x n N C f (t / 2) t Hf h' g' ltac:(congruence) ltac:(congruence)) as (r1 & Q1 & _ & R1'). rewrite Er' in Q1; injection Q1 as <-.
  destruct (part_ok x n N C f (t / 2) Hf) as (_ & _ & P3).
  intros b j v v' Hj Hv Hv'. destruct (in_ball_bounds x n N C _ j b Hj) as [Bj Bb].
  destruct (P3 b Bb) as [Q _]. destruct (Q (ex_intro _ j Hj)) as (_ & _ & _ & m & Em & Bm & _).
  pose proof (proj1 (R1 b Bb) m Em (ex_intro _ j Hj)) as V1. pose proof (proj1 (R1' b Bb) m Em (ex_intro _ j Hj)) as V1'.
  rewrite Hv in V1; injection V1 as ->. rewrite Hv' in V1'; injection V1' as ->.
  eexists; eexists; split; [reflexivity|]. split; [reflexivity|].
  assert (Full : forall s, full dm t h' m s = full dm t h m s).
  { assert (U : forall i s, upper dm t h' i s = upper dm t h i s).
    { intros i s. unfold upper. destruct (Nat.ltb_spec i s) as [Hl|]; cbn [andb]; [|reflexivity].
      destruct (closeb Rltb dm t i s) eqn:Ec; [|reflexivity]. apply closeb_close in Ec. apply H1; [|exact Ec].
      split; [exact Hl|]. destruct Ec as (rw & d & Q1 & Q2 & _). apply nth_error_In in Q1 as I1.
      pose proof Sq as Sq'; unfold square in Sq'; rewrite Forall_forall in Sq'. rewrite <- (Sq' rw I1). apply (some_lt _ _ _ Q2). }
    intros s; unfold full; rewrite !U; reflexivity. }
  assert (Kj : kap j = kap m).
  { apply Kc. destruct (Nat.lt_trichotomy j m) as [Hl|[->|Hl]].
    - apply rst_step; split; [exact Hl|]. apply (balls_close x n N C (t / 2) t j m b Me ltac:(lra) Hl Hj Bm).
    - apply rst_refl.
    - apply rst_sym, rst_step; split; [exact Hl|]. apply (balls_close x n N C (t / 2) t m j b Me ltac:(lra) Hl Bm Hj). }
  rewrite (sumn_ext n (fun s => full (em_dist_land_land (t_em x)) t h' m s * _) (fun s => full dm t h m s * weight_at x (t / 2) f s b))
    by (intros s _; rewrite <- Full; reflexivity).
  fold dm. set (S0 := sumn n _). rewrite Kj.
  eapply same_trans; [apply mod_two_pi_same|].
  apply same_trans with (2 * PI * (nth m g 0 + S0) + 2 * PI * kap m).
  - exists (k m). unfold kap; ring.
  - destruct (mod_two_pi_same (2 * PI * (nth m g 0 + S0))) as (z & Hz). exists (- z)%Z. rewrite opp_IZR. lra.
Qed.
Print Assumptions C52_cohomologous_cochains.

(** The integer cochains [c] and [c'] differ by the coboundary of an integer 0-cochain on the
    Rips complex at scale [t]. *)
Definition cohomologous (dm : list (list R)) (t : R) (table : list (list nat)) (c c' : list Z) : Prop :=
  exists k : nat -> Z, forall i j, (i < j < length dm)%nat -> close Rltb dm t i j ->
    edge_value table (map IZR c') i j = edge_value table (map IZR c) i j + IZR (k i - k j).

(** C52 for calls, with dense vectors. *)
Lemma depend_vec :
  forall ext x y n N perc idx idx' f (sr check : bool) birth death c c' vec vec',
  consistent x n N -> consistent y n N -> metric x -> same_points x y ->
  sound_numpy ext -> least_squares (x_lsqr ext) -> (forall r, bump f r) ->
  class_of x idx birth death c -> class_of y idx' birth death c' -> birth < death ->
  let start := if sr then 2 * birth else birth in
  start <= death ->
  let t := (1 - perc) * start + perc * death in
  let dm := em_dist_land_land (t_em x) in
  let vector c := sparse_cocycle_to_vector (x_argsort ext) (lift_to_integer_cocycle (em_prime (t_em x)) c) (t_table x) n in
  vector c = Ok vec -> vector c' = Ok vec' -> cohomologous dm t (t_table x) vec vec' ->
  (check = true -> one_cocycle Rltb dm t (t_table x) vec /\ one_cocycle Rltb dm t (t_table x) vec') ->
  exists row row' (rotation : nat -> R),
    snd (circular_get_coordinates ext x perc idx f sr check) = Ok row /\
    snd (circular_get_coordinates ext y perc idx' f sr check) = Ok row' /\
    length row = N /\ length row' = N /\
    (forall i j, connected dm t i j -> rotation i = rotation j) /\
    forall b, (b < N)%nat ->
      (forall j, in_ball (em_dist_land_data (t_em x)) (t / 2) j b -> exists a a',
        nth_error row b = Some (Some a) /\ nth_error row' b = Some (Some a') /\ same_angle a' (a + rotation j)) /\
      ((forall j, ~ in_ball (em_dist_land_data (t_em x)) (t / 2) j b) -> nth_error row b = Some None /\ nth_error row' b = Some None).
Proof.
  intros ext x y n N perc idx idx' f sr check birth death c c' vec vec' C C' Me (Pp & Pn & Pl & Pd & PT) HE HL Hf Hc Hc' Hbd start Hst t dm vector Ev Ev' (k & Hk) Hch.
  destruct (sq_ll x n N C) as [Sq L]. fold dm in Sq, L.
  assert (Part : get_covering_partition (t_em y) (t / 2) f = get_covering_partition (t_em x) (t / 2) f).
  { unfold get_covering_partition; rewrite Pd; reflexivity. }
  assert (Lv : forall z zi cz vz, consistent z n N -> em_prime (t_em z) = em_prime (t_em x) -> t_table z = t_table x -> class_of z zi birth death cz -> vector cz = Ok vz -> length vz = comb n 2).
  { intros z zi cz vz Cz Pz Tz Hz Evz. destruct (get_rep_inv z n N zi birth death cz Cz Hz) as (dgm & cs & i & _ & G2 & _ & _ & _ & Ec).
    destruct (co_classes _ _ _ Cz) as (dgm2 & cs2 & _ & G4 & _ & G5). rewrite G2 in G4; injection G4 as <-.
    rewrite Forall_forall in G5. pose proof (G5 cz (nth_error_In _ _ Ec)) as Ez. apply (lift_edge n (em_prime (t_em x))) in Ez.
    destruct (co_table _ _ _ C) as (n' & Hn' & ET).
    destruct (edge_vector (x_argsort ext) n n' _ (proj1 HE) Hn' Ez) as (v & E & Lz). unfold vector in Evz. rewrite ET, E in Evz; injection Evz as <-; exact Lz. }
  pose proof (Lv x idx c vec C eq_refl eq_refl Hc Ev) as L1. pose proof (Lv y idx' c' vec' C' Pp PT Hc' Ev') as L2.
  assert (Rep : forall v, length v = comb n 2 -> (check = true -> one_cocycle Rltb dm t (t_table x) v) ->
     (if check then repair_all Rltb (x_junk ext) (em_prime (t_em x)) (x_milp ext) dm t (t_table x) [v] else Ok [v]) = Ok [v]).
  { intros v L3 Ho. destruct check; [|reflexivity]. specialize (Ho eq_refl). destruct (co_table _ _ _ C) as (n' & Hn' & ET). rewrite ET in Ho |- *.
    pose proof (co_pos _ _ _ C). apply repaired_single; [assumption|lia|lia|congruence|left; split; [exact Ho|reflexivity]]. }
  destruct (coordinates_total x n N ext C HE f t (Hf _) [lift_to_integer_cocycle (em_prime (t_em x)) c] [vec] [vec] check)
    as (M0 & W & hf & A & gm & E0 & EW & Ehf & EA & _ & Ecoord).
  { cbn [map_res]. unfold vector in Ev; rewrite Ev; reflexivity. }
  { apply Rep; [exact L1|intros H; apply (Hch H)]. }
  { constructor; [exact L1|constructor]. }
  destruct (coordinates_total y n N ext C' HE f t (Hf _) [lift_to_integer_cocycle (em_prime (t_em y)) c'] [vec'] [vec'] check)
    as (M0' & W' & hf' & A' & gm' & E0' & EW' & Ehf' & EA' & _ & Ecoord').
  { cbn [map_res]. unfold vector in Ev'; rewrite Pp, PT, Ev'; reflexivity. }
  { rewrite Pp, Pl, PT; fold dm. apply Rep; [exact L2|intros H; apply (Hch H)]. }
  { constructor; [exact L2|constructor]. }
  rewrite Pl, PT in E0', EW'. rewrite E0 in E0'; injection E0' as <-. rewrite EW in EW'; injection EW' as <-.
  rewrite Pl, PT, Part in EA'. cbn [map_res] in Ehf, Ehf'.
  destruct (integrate_harmonic_representative (x_lsqr ext) vec M0 (snd W)) as [[h g]|] eqn:Ei; cbn [bind] in Ehf; [|discriminate]. injection Ehf as <-.
  destruct (integrate_harmonic_representative (x_lsqr ext) vec' M0 (snd W)) as [[h' g']|] eqn:Ei'; cbn [bind] in Ehf'; [|discriminate]. injection Ehf' as <-.
  cbn [map_res fst snd] in EA, EA'.
  destruct (sparse_integrate h g _ _ _ _ _) as [row|] eqn:Es in EA; cbn [bind] in EA; [|discriminate]. injection EA as <-.
  destruct (sparse_integrate h' g' _ _ _ _ _) as [row'|] eqn:Es' in EA'; cbn [bind] in EA'; [|discriminate]. injection EA' as <-.
  cbn [length Nat.ltb Nat.leb] in Ecoord, Ecoord'.
  assert (B1 : is_binomial n 2 (length vec)) by (rewrite L1; apply comb_is_binomial).
  assert (B2 : is_binomial n 2 (length vec')) by (rewrite L2; apply comb_is_binomial).
  destruct (C52_cohomologous_cochains x n N ext t f vec vec' k M0 W h g h' g' row row' C Me HL (Hf _) B1 B2
     (fun i j Hij Hcl => Hk i j ltac:(fold dm in L; lia) Hcl) E0 EW Ei Ei' Es Es') as [_ (rot & R1 & R2)].
  destruct (harmonic_value x n N C t ext (x_junk ext) M0 W vec h g _ (proj2 HE) E0 EW L1 Ei (eta_of_anti x n N C vec L1)) as (Lg & Lh & _).
  destruct (harmonic_value x n N C t ext (x_junk ext) M0 W vec' h' g' _ (proj2 HE) E0 EW L2 Ei' (eta_of_anti x n N C vec' L2)) as (Lg' & Lh' & _).
  destruct (row_ok x n N C f (t / 2) t (Hf _) h g Lh Lg) as (r1 & Q1 & Lr & V1). rewrite Es in Q1; injection Q1 as <-.
  destruct (row_ok x n N C f (t / 2) t (Hf _) h' g' Lh' Lg') as (r1 & Q1 & Lr' & V1'). rewrite Es' in Q1; injection Q1 as <-.
  exists row, row', rot.
  split; [apply (single_call ext x n N perc idx f sr check birth death c row C Hc Hbd Hst); exact Ecoord|].
  split; [apply (single_call ext y n N perc idx' f sr check birth death c' row' C' Hc' Hbd Hst); exact Ecoord'|].
  split; [exact Lr|]. split; [exact Lr'|]. split; [exact R1|].
  intros b Hb. split.
  - intros j Hj. destruct (nth_error row b) as [v|] eqn:Hv; [|apply nth_error_None in Hv; lia].
    destruct (nth_error row' b) as [v'|] eqn:Hv'; [|apply nth_error_None in Hv'; lia].
    destruct (R2 b j v v' Hj Hv Hv') as (a & a' & -> & -> & Ha). exists a, a'; auto.
  - intros Hn. split; [apply (V1 b Hb), Hn|apply (V1' b Hb), Hn].
Qed.

(** C52 for calls: two representatives of one class (their integer lifts differ by the coboundary
    of an integer function of the landmarks) give coordinates that differ by rotations constant on
    connected components. *)
Theorem C52_coordinates_depend_on_the_class :
  forall ext x y n N perc idx idx' f (sr check : bool) birth death c c' l l' (k : nat -> Z),
  consistent x n N -> consistent y n N -> metric x -> same_points x y ->
  sound_numpy ext -> least_squares (x_lsqr ext) -> (forall r, bump f r) ->
  class_of x idx birth death c -> class_of y idx' birth death c' -> birth < death ->
  let start := if sr then 2 * birth else birth in
  start <= death ->
  let t := (1 - perc) * start + perc * death in
  let dm := em_dist_land_land (t_em x) in
  integer_lift (em_prime (t_em x)) c l -> integer_lift (em_prime (t_em x)) c' l' ->
  (forall i j, (i < j < n)%nat -> close Rltb dm t i j -> (sparse_edge l' i j = sparse_edge l i j + (k i - k j))%Z) ->
  (check = true -> cocycle_on dm t (fun v => v = 0%Z) (sparse_edge l) /\ cocycle_on dm t (fun v => v = 0%Z) (sparse_edge l')) ->
  exists row row' (rotation : nat -> R),
    snd (circular_get_coordinates ext x perc idx f sr check) = Ok row /\
    snd (circular_get_coordinates ext y perc idx' f sr check) = Ok row' /\
    length row = N /\ length row' = N /\
    (forall i j, connected dm t i j -> rotation i = rotation j) /\
    forall b, (b < N)%nat ->
      (forall j, in_ball (em_dist_land_data (t_em x)) (t / 2) j b -> exists a a',
        nth_error row b = Some (Some a) /\ nth_error row' b = Some (Some a') /\ same_angle a' (a + rotation j)) /\
      ((forall j, ~ in_ball (em_dist_land_data (t_em x)) (t / 2) j b) -> nth_error row b = Some None /\ nth_error row' b = Some None).
Proof.
  intros ext x y n N perc idx idx' f sr check birth death c c' l l' k C C' Me SP HE HL Hf Hc Hc' Hbd start Hst t dm Hl Hl' Hk Hch.
  apply integer_lift_ok in Hl, Hl'. subst l l'.
  assert (Ec : edge_cocycle n (lift_to_integer_cocycle (em_prime (t_em x)) c)) by (apply lift_edge, (class_edge_cocycle x n N C _ _ _ _ Hc)).
  assert (Ec' : edge_cocycle n (lift_to_integer_cocycle (em_prime (t_em x)) c')) by (apply lift_edge, (class_edge_cocycle y n N C' _ _ _ _ Hc')).
  destruct (co_table _ _ _ C) as (n' & Hn' & ET). destruct (sq_ll x n N C) as [_ Ln].
  destruct (edge_vector (x_argsort ext) n n' _ (proj1 HE) Hn' Ec) as (vec & Ev & Lv). rewrite <- ET in Ev.
  destruct (edge_vector (x_argsort ext) n n' _ (proj1 HE) Hn' Ec') as (vec' & Ev' & Lv'). rewrite <- ET in Ev'.
  apply (depend_vec ext x y n N perc idx idx' f sr check birth death c c' vec vec'); try assumption.
  - exists k. intros i j Hij Hcl. assert (Hij' : (i < j < n)%nat) by (rewrite <- Ln; exact Hij). clear Hij; rename Hij' into Hij.
    assert (V : forall cc vv, edge_cocycle n cc -> sparse_cocycle_to_vector (x_argsort ext) cc (t_table x) n = Ok vv -> edge_value (t_table x) (map IZR vv) i j = IZR (sparse_edge cc i j)).
    { intros cc vv E1 E2. destruct (dense_value x n N C ext HE cc vv E1 E2 i j Hij) as (q & Q1 & Q2). unfold edge_value. rewrite Q1.
      apply nth_error_nth. rewrite nth_error_map, Q2. reflexivity. }
    rewrite (V _ _ Ec' Ev'), (V _ _ Ec Ev), <- plus_IZR. f_equal. apply Hk; assumption.
  - intros H. destruct (Hch H) as [H1 H2]. split; [apply (vec_cocycle x n N C ext HE _ t vec Ec Ev H1)|apply (vec_cocycle x n N C ext HE _ t vec' Ec' Ev' H2)].
Qed.
Print Assumptions C52_coordinates_depend_on_the_class.

(** C33: with existing classes of common support the coordinates of a single class are returned
    unless the class has no integral lift; *)
Theorem C33_one_class_returned :
  forall ext x n N perc idx f (sr check : bool) birth death c,
  consistent x n N -> sound_numpy ext -> (forall r, bump f r) ->
  class_of x idx birth death c -> birth < death -> (if sr then 2 * birth else birth) <= death ->
  let out := snd (circular_get_coordinates ext x perc idx f sr check) in
  (check = false -> exists row, out = Ok row) /\
  (sound_solver ext -> perc <= 1 -> cocycle_until x death c ->
     (exists row, out = Ok row) \/ out = Raise (NoIntegralLift 0)).
Proof.
  intros ext x n N perc idx f sr check birth death c C HE Hf Hc Hbd Hst out.
  destruct (sq_ll x n N C) as [Sq L]. set (dm := em_dist_land_land (t_em x)) in *.
  set (t := (1 - perc) * (if sr then 2 * birth else birth) + perc * death).
  destruct (get_rep_inv x n N idx birth death c C Hc) as (dgm & cs & i & _ & G2 & _ & _ & _ & Ec).
  assert (Ecc : edge_cocycle n c).
  { destruct (co_classes _ _ _ C) as (dgm2 & cs2 & _ & G4 & _ & G5). rewrite G2 in G4; injection G4 as <-.
    rewrite Forall_forall in G5. apply (G5 c (nth_error_In _ _ Ec)). }
  pose proof (lift_edge n (em_prime (t_em x)) c Ecc) as Ez.
  destruct (co_table _ _ _ C) as (n' & Hn' & ET). pose proof (co_pos _ _ _ C) as Hp.
  destruct (edge_vector (x_argsort ext) n n' _ (proj1 HE) Hn' Ez) as (vec & Ev & Lv).
  assert (Main : forall e, (if check then repair_all Rltb (x_junk ext) (em_prime (t_em x)) (x_milp ext) dm t (t_table x) [vec] else Ok [vec]) = Ok [e] ->
     length e = comb n 2 -> exists row, out = Ok row).
  { intros e Er Le.
    destruct (coordinates_total x n N ext C HE f t (Hf _) [lift_to_integer_cocycle (em_prime (t_em x)) c] [vec] [e] check)
      as (M0 & W & hf & A & gm & E0 & EW & Ehf & EA & _ & Ecoord).
    { cbn [map_res]. rewrite ET, Ev; reflexivity. }
    { exact Er. }
    { constructor; [exact Le|constructor]. }
    pose proof (map_res_length _ _ _ Ehf) as Q1. pose proof (map_res_length _ _ _ EA) as Q2. rewrite Q1 in Q2; cbn [length] in Q2.
    destruct A as [|row [|]]; try discriminate Q2. exists row.
    apply (single_call ext x n N perc idx f sr check birth death c row C Hc Hbd Hst). exact Ecoord. }
  split.
  - intros ->. apply (Main vec); [reflexivity|exact Lv].
  - intros (eps & tol & He & Ht & Het & Hm) Hperc Hu. destruct check; [|left; apply (Main vec); [reflexivity|exact Lv]].
    assert (Hn2 : (Z.of_nat (length dm) <= 2345)%Z) by lia. assert (Hpp : (0 < em_prime (t_em x))%Z) by (pose proof (co_prime _ _ _ C); lia).
    assert (Htd : t <= death) by (unfold t; destruct sr; nra).
    destruct (edge_vector (x_argsort ext) n n' _ (proj1 HE) Hn' Ecc) as (v0 & Ev0 & Lv0). rewrite <- ET in Ev0.
    destruct (lifts_vector (x_argsort ext) (em_prime (t_em x)) (t_table x) n 1 c v0 Ev0) as (v2 & Ev2 & Cv).
    change (Nat.iter 1 (lift_to_integer_cocycle (em_prime (t_em x))) c) with (lift_to_integer_cocycle (em_prime (t_em x)) c) in Ev2.
    rewrite ET, Ev in Ev2; injection Ev2 as <-.
    assert (Hmod : one_cocycle_mod Rltb dm t (t_table x) (em_prime (t_em x)) v0).
    { apply (until_vec x n N C ext HE death c Ecc Hu t v0 Htd). rewrite (co_landmarks _ _ _ C); exact Ev0. }
    rewrite ET in Hmod.
    pose proof (lift_mod_cocycle Rltb _ t n' _ v0 vec ltac:(rewrite L; exact Hn') Cv ltac:(rewrite L; exact Lv0) Hmod) as Hmv.
    assert (B : Forall (fun x => is_binomial (length dm) 2 (length x)) ([] ++ vec :: [])).
    { constructor; [rewrite Lv, L; apply comb_is_binomial|constructor]. }
    destruct (C20_one_class_is_repaired Rltb dm t n' 2 (em_prime (t_em x)) [] vec [] eps tol (x_milp ext) (x_junk ext) Sq ltac:(lia) ltac:(lia) Hn2 Hpp B He Ht Het Hm Hmv (Forall_nil _))
      as [(e & Er & _ & Ce)|Er]; cbn [app] in Er.
    + left. apply (Main e); [rewrite ET; exact Er|]. rewrite <- Lv. clear - Ce. symmetry; apply (f2_length Ce).
    + right. unfold out, circular_get_coordinates.
      destruct (co_classes _ _ _ C) as (dgm' & cs' & E1 & E2 & L2 & _).
      assert (Er0 : map_res (fun k => get_representative_cocycle (t_em x) k 1) [idx] = Ok [(birth, death, c)]).
      { cbn [map_res]. rewrite (proj1 (em_class1 _ _ _ _ _) Hc); reflexivity. }
      destruct (call_front ext x perc [idx] f sr true [(birth, death, c)] dgm' cs' E1 E2 L2 Er0 ltac:(discriminate)) as (b & d & B1 & _ & D1 & _ & _ & G).
      destruct B1 as [<-|[]]. destruct D1 as [<-|[]]. cbn [fst snd] in G. destruct (G Hbd) as (store & cs2 & S1 & S2 & S3 & _ & _ & G3).
      destruct (G3 Hst) as (_ & _ & G4). clear G G3. fold t in G4.
      destruct (get_coordinates ext x perc [idx] f sr true) as [x1 r1]; cbn [snd] in G4 |- *. rewrite G4; clear G4.
      rewrite G2 in E2; injection E2 as <-.
      destruct (get_rep_inv x n N idx birth death c C Hc) as (dgm2 & cs3 & i2 & _ & H2 & _ & Ep & _ & Ec2). rewrite G2 in H2; injection H2 as <-.
      assert (Elift : map (fun k => nth (posn (length cs) k) cs2 no_c) [idx] = [lift_to_integer_cocycle (em_prime (t_em x)) c]).
      { cbn [map]. unfold posn; rewrite Ep. pose proof (S3 i2 c Ec2) as S4.
        assert (Tm : times (length cs) [idx] i2 = 1%nat) by (unfold times; cbn [filter]; rewrite Ep, Nat.eqb_refl; reflexivity).
        rewrite Tm in S4. rewrite (nth_error_nth _ _ _ S4); reflexivity. }
      rewrite Elift. unfold coordinates. destruct (get_covering_partition (t_em x) (t / 2) f) as [vp bl].
      destruct (matrices_ok x n N ext C t) as (M0 & W & E0 & EW). rewrite E0; cbn [bind map_res].
      rewrite (co_landmarks _ _ _ C), ET, Ev; cbn [bind]. fold dm. rewrite Er; reflexivity.
Qed.
Print Assumptions C33_one_class_returned.

(** C33, several classes: the coordinates are returned unless the Cholesky factorisation raises
    or the lattice reduction does not end. *)
Theorem C33_several_classes_returned :
  forall ext x n N perc idxs f (sr : bool),
  consistent x n N -> sound_numpy ext -> sound_cholesky ext -> (forall r, bump f r) ->
  idxs <> [] -> Forall (fun k => exists b d c, class_of x k b d c) idxs ->
  (forall k1 k2 b1 d1 c1 b2 d2 c2, In k1 idxs -> In k2 idxs -> class_of x k1 b1 d1 c1 -> class_of x k2 b2 d2 c2 ->
     b1 < d2 /\ (sr = true -> 2 * b1 <= d2)) ->
  let out := snd (get_coordinates ext x perc idxs f sr false) in
  (exists rows, out = Ok rows) \/
  (1 < length idxs)%nat /\
    ((exists G err, x_cholesky ext G = Raise err /\ out = Raise err) \/
     (exists G L, x_cholesky ext G = Ok L /\ lll (x_fuel ext) L = Raise LoopForever /\ out = Raise LoopForever)).
Proof.
  intros ext x n N perc idxs f sr C HE HC Hf Nn Fc Ov out.
  destruct (classes_reps x idxs Fc) as (reps & Er & Fr).
  destruct (co_classes _ _ _ C) as (dgm & cs & E1 & E2 & L & Fe).
  destruct (call_front ext x perc idxs f sr false reps dgm cs E1 E2 L Er Nn) as (b & d & B1 & B2 & D1 & D2 & _ & G).
  destruct (in_reps_birth x idxs reps b Fr B1) as (k1 & d1 & c1 & I1 & C1).
  destruct (in_reps_death x idxs reps d Fr D1) as (k2 & b2 & c2 & I2 & C2).
  destruct (Ov k1 k2 _ _ _ _ _ _ I1 I2 C1 C2) as [O1 O2].
  destruct (G O1) as (store & cs' & N1 & L1 & H1 & _ & _ & G2). clear G.
  assert (Hs : (if sr then 2 * b else b) <= d) by (destruct sr; [auto|lra]).
  destruct (G2 Hs) as (_ & _ & G3). clear G2. cbv zeta in G3.
  set (t := (1 - perc) * (if sr then 2 * b else b) + perc * d) in *.
  set (lifted := map (fun k => nth (posn (length cs) k) cs' no_c) idxs) in *. fold out in G3.
  assert (Fl : Forall (edge_cocycle n) lifted).
  { unfold lifted. rewrite Forall_map. apply Forall_forall; intros k Hk. rewrite Forall_forall in Fc. destruct (Fc k Hk) as (b0 & d0 & c0 & Hc0).
    destruct (get_rep_inv x n N k b0 d0 c0 C Hc0) as (dgm2 & cs2 & i & _ & Q2 & _ & Ep & _ & Ec). rewrite E2 in Q2; injection Q2 as <-.
    unfold posn; rewrite Ep. rewrite (nth_error_nth _ _ _ (H1 i c0 Ec)). apply lifts_edge. rewrite Forall_forall in Fe. apply Fe, (nth_error_In _ _ Ec). }
  destruct (vecs_ok x n N ext C HE lifted Fl) as (vecs & Ev & Fv). rewrite (co_landmarks _ _ _ C) in Ev.
  destruct (coordinates_total x n N ext C HE f t (Hf _) lifted vecs vecs false Ev eq_refl Fv)
    as (M0 & W & hf & A & gm & E0 & EW & Ehf & EA & Eg & Ecoord). rewrite Ecoord in G3.
  assert (Ll : length lifted = length idxs) by (unfold lifted; apply map_length). rewrite Ll in G3.
  destruct (Nat.ltb_spec 1 (length idxs)) as [Hl|Hl].
  2:{ left; exists A; exact G3. }
  unfold reduce_circular_coordinates in G3. destruct (x_cholesky ext gm) as [Lm|err] eqn:EL; cbn [bind] in G3.
  2:{ right; split; [exact Hl|]. left; exists gm, err; auto. }
  destruct (lll (x_fuel ext) Lm) as [[B' ch]|err] eqn:El; cbn [bind fst snd] in G3.
  2:{ right; split; [exact Hl|]. right; exists gm, Lm. split; [exact EL|].
      assert (err = LoopForever) as ->; [|split; [exact El|exact G3]].
      revert El; unfold lll. generalize (lll_init Lm). generalize (x_fuel ext). clear. intros fuel; induction fuel as [|fuel IH]; intros st; cbn [lll_loop].
      - destruct (_ <? _)%nat; [intros H; injection H; auto|discriminate].
      - destruct (_ <? _)%nat; [apply IH|discriminate]. }
  pose proof (map_res_length _ _ _ Ev) as Q0. pose proof (map_res_length _ _ _ Ehf) as Q1. pose proof (map_res_length _ _ _ EA) as Q2.
  pose proof (gram_shape _ _ _ Eg) as Mg. rewrite map_length in Mg. replace (length hf) with (length idxs) in Mg by congruence.
  destruct (HC _ gm Lm Mg EL) as [ML _].
  destruct (C37_result _ Lm _ B' ch ML El) as (_ & (U & (MU & _) & -> & _) & _).
  left. unfold linear_combination in G3.
  assert (LA : length A = length idxs) by congruence.
  assert (NA : negb (length A =? 0)%nat = true) by (rewrite LA; destruct (length idxs); [lia|reflexivity]). rewrite NA in G3.
  assert (Hh : (length A =? length (hd [] (map (map IZR) U)))%nat = true).
  { apply Nat.eqb_eq. destruct MU as [LU FU]. destruct U as [|u U]; [cbn in LU; lia|]. inversion FU; subst. cbn [map hd]. rewrite map_length. congruence. }
  rewrite Hh in G3. cbn [bind] in G3. eexists; exact G3.
Qed.
Print Assumptions C33_several_classes_returned.

Lemma sumn_sq k (u w : nat -> R) (h : nat -> nat -> R) (m : nat) :
  sumn m (fun c => sumn k (fun a => u a * h a c) * sumn k (fun b => w b * h b c)) =
  sumn k (fun a => sumn k (fun b => u a * w b * sumn m (fun c => h a c * h b c))).
Proof.
  rewrite (sumn_ext m _ (fun c => sumn k (fun a => sumn k (fun b => u a * w b * (h a c * h b c))))).
  - rewrite sumn_swap. apply sumn_ext; intros a _. rewrite sumn_swap. apply sumn_ext; intros b _. rewrite sumn_scal; reflexivity.
  - intros c _. rewrite <- sumn_scal_r. apply sumn_ext; intros a _. rewrite <- sumn_scal. apply sumn_ext; intros b _. ring.
Qed.

Lemma edge_sum_sumn dm t k (F : nat -> nat -> nat -> R) :
  edge_sum dm t (fun i j => sumn k (fun a => F a i j)) = sumn k (fun a => edge_sum dm t (F a)).
Proof.
  induction k as [|k IH]; cbn [sumn].
  - unfold edge_sum; apply sumn_0; intros j _; apply sumn_0; intros i _; destruct (Rlt_dec _ _); reflexivity.
  - rewrite <- IH. unfold edge_sum. rewrite <- sumn_add; apply sumn_ext; intros j _. rewrite <- sumn_add; apply sumn_ext; intros i _.
    destruct (Rlt_dec _ _); ring.
Qed.

Lemma edge_bilinear dm t k (u w : nat -> R) (h : nat -> nat -> nat -> R) :
  edge_sum dm t (fun i j => sumn k (fun a => u a * h a i j) * sumn k (fun b => w b * h b i j)) =
  sumn k (fun a => sumn k (fun b => u a * w b * edge_sum dm t (fun i j => h a i j * h b i j))).
Proof.
  assert (E : forall (P Q : nat -> nat -> R), (forall i j, P i j = Q i j) -> edge_sum dm t P = edge_sum dm t Q).
  { intros P Q H; unfold edge_sum; apply sumn_ext; intros j _; apply sumn_ext; intros i _; rewrite H; reflexivity. }
  rewrite (E _ (fun i j => sumn k (fun a => sumn k (fun b => u a * w b * (h a i j * h b i j))))).
  - rewrite edge_sum_sumn. apply sumn_ext; intros a _. rewrite edge_sum_sumn. apply sumn_ext; intros b _.
    unfold edge_sum; rewrite <- sumn_scal; apply sumn_ext; intros j _; rewrite <- sumn_scal; apply sumn_ext; intros i _; destruct (Rlt_dec _ _); ring.
  - intros i j. rewrite <- sumn_scal_r. apply sumn_ext; intros a _. rewrite <- sumn_scal. apply sumn_ext; intros b _. ring.
Qed.

(** C39: what is stored.  [hs] are the harmonic representatives of the selected classes, [U] the
    change of basis.  [_original_gram_matrix] is the matrix of their inner products.  The inner
    products of the harmonic representatives of the returned coordinates are those of the rows
    of a matrix [B], but [_gram_matrix] holds the inner products of its columns.  The two
    have the same trace. *)
Theorem C39_stored_matrices :
  forall ext x n N perc idxs f sr check x' rows,
  consistent x n N -> sound_numpy ext -> sound_cholesky ext -> (forall r, bump f r) ->
  (1 < length idxs)%nat ->
  get_coordinates ext x perc idxs f sr check = (x', Ok rows) ->
  let k := length idxs in let dm := em_dist_land_land (t_em x) in let T := t_table x in
  exists t delta0 W etas hs U G0 G1 B,
    em_rips_threshold (t_em x') = Some t /\
    make_delta0 Rltb (x_junk ext) dm t T = Ok delta0 /\ make_inner_product Rltb (x_junk ext) dm t T = Ok W /\
    length etas = k /\ length hs = k /\
    (forall a eta, nth_error etas a = Some eta -> exists h g, nth_error hs a = Some h /\
       integrate_harmonic_representative (x_lsqr ext) eta delta0 (snd W) = Ok (h, g)) /\
    unimodular k U /\ matrix k k G0 /\ matrix k k G1 /\
    t_original_gram x' = Some G0 /\ t_gram x' = Some G1 /\ t_change_basis x' = Some (map (map IZR) U) /\
    (forall a b, (a < k)%nat -> (b < k)%nat ->
       at2 0 G0 a b = edge_sum dm t (fun i j => edge_value T (nth a hs []) i j * edge_value T (nth b hs []) i j)) /\
    let new a i j := sumn k (fun h => IZR (at2 0%Z U a h) * edge_value T (nth h hs []) i j) in
    let gram a b := edge_sum dm t (fun i j => new a i j * new b i j) in
    (forall a b, (a < k)%nat -> (b < k)%nat ->
       gram a b = sumn k (fun c => at2 0 B a c * at2 0 B b c) /\
       at2 0 G1 a b = sumn k (fun c => at2 0 B c a * at2 0 B c b)) /\
    sumn k (fun a => at2 0 G1 a a) = sumn k (fun a => gram a a).
Proof.
  intros ext x n N perc idxs f sr check x' rows C HE HC Hf Hk E k dm T.
  destruct (call_main ext x n N perc idxs f sr check x' rows C HE HC Hf E) as
    (reps & birth & death & t & lifted & vecs & etas & M0 & W & hf & A & U & Ereps & K1 & B1 & B2 & D1 & D2 & Lt & St & Et & T1 & T2 & Fl & Ev & Fv & Frep & E0 & EW & Feta & Ehf & EA & MA & FA & HU & U1 & Elc & _ & Many).
  destruct (Many Hk) as (gm & L & B & Eg & EL & Ell & Mg & HR & MB & S1 & S2 & S3).
  fold k in MA, HU, Mg, HR, MB. fold dm T in E0, EW, EA.
  destruct (HC k gm L Mg EL) as [ML HG'].
  destruct (sq_ll x n N C) as [Sq Ln]. fold dm in Sq, Ln. destruct (co_table _ _ _ C) as (n' & Hn' & ET). fold T in ET. pose proof (co_pos _ _ _ C) as Hp.
  assert (Lhf : length hf = k).
  { pose proof (map_res_length _ _ _ EA) as Q. destruct MA as [Q1 _]. congruence. }
  assert (Letas : length etas = k) by (pose proof (map_res_length _ _ _ Ehf); congruence).
  assert (Fh : Forall (fun h => length h = comb (length dm) 2) (map fst hf)).
  { rewrite Forall_map. apply Forall_forall; intros [h g] Hin. cbn [fst]. apply In_nth_error in Hin; destruct Hin as (i & Hi).
    pose proof Ehf as Ehf'. apply map_res_ok2 in Ehf'. destruct (f2_nth2 _ _ _ _ _ Ehf' Hi) as (c & Hc & Ei).
    rewrite Forall_forall in Feta. pose proof (Feta c (nth_error_In _ _ Hc)) as Lc.
    destruct (harmonic_value x n N C t ext (x_junk ext) M0 W c h g _ (proj2 HE) E0 EW Lc Ei (eta_of_anti x n N C c Lc)) as (_ & Lh & _). congruence. }
  pose proof EW as EW'. rewrite ET in EW'.
  destruct (gram_ok dm t n' 2 Sq ltac:(lia) ltac:(lia) ltac:(lia) (x_junk ext) W EW' (map fst hf) Fh) as (gm' & Eg' & Hg).
  rewrite Eg in Eg'; injection Eg' as <-. rewrite <- ET in Hg.
  exists t, M0, W, etas, (map fst hf), U, gm, (times_transpose B), B.
  split; [exact T1|]. split; [exact E0|]. split; [exact EW|]. split; [exact Letas|]. split; [rewrite map_length; exact Lhf|].
  split.
  { intros a eta Ha. destruct (map_res_nth _ _ _ _ _ Ehf Ha) as ([h g] & Hh & Ei). exists h, g; split; [|exact Ei].
    rewrite nth_error_map, Hh; reflexivity. }
  split; [exact HU|]. split; [exact Mg|]. split; [unfold times_transpose; destruct MB as [-> _]; apply matrix_mk2|].
  split; [exact S1|]. split; [exact S2|]. split; [exact S3|].
  assert (G0 : forall a b, (a < k)%nat -> (b < k)%nat ->
       at2 0 gm a b = edge_sum dm t (fun i j => edge_value T (nth a (map fst hf) []) i j * edge_value T (nth b (map fst hf) []) i j)).
  { intros a b Ha Hb. apply (Hg a b); apply nth_error_nth'; rewrite map_length; lia. }
  split; [exact G0|]. intros new gram.
  assert (Sy : symmetric k gm).
  { intros a b Ha Hb. rewrite !G0 by assumption. apply (edge_sum_ext dm t n' 2 Sq ltac:(lia) ltac:(lia)). intros; ring. }
  destruct (HG' Sy) as (_ & _ & HG).
  assert (G1 : forall a b, (a < k)%nat -> (b < k)%nat ->
       gram a b = sumn k (fun c => at2 0 B a c * at2 0 B b c) /\
       at2 0 (times_transpose B) a b = sumn k (fun c => at2 0 B c a * at2 0 B c b)).
  { intros a b Ha Hb. split.
    - unfold gram, new. rewrite edge_bilinear.
      rewrite (sumn_ext k (fun c => at2 0 B a c * at2 0 B b c)
        (fun c => sumn k (fun h => IZR (at2 0%Z U a h) * at2 0 L h c) * sumn k (fun h => IZR (at2 0%Z U b h) * at2 0 L h c))).
      + rewrite sumn_sq. apply sumn_ext; intros h Hh. apply sumn_ext; intros h' Hh'. f_equal. rewrite <- (G0 h h' Hh Hh'). apply HG; assumption.
      + intros c Hc. rewrite <- (HR a c Ha Hc), <- (HR b c Hb Hc). reflexivity.
    - unfold times_transpose. destruct MB as [LB _]. rewrite LB, at2_mk2 by assumption. unfold np_sum.
      rewrite fold_sumn, map_length, LB. apply sumn_ext; intros c Hc.
      rewrite (nth_indep _ 0 (nth a [] 0 * nth b [] 0)) by (rewrite map_length, LB; exact Hc).
      rewrite (map_nth (fun c => nth a c 0 * nth b c 0)). reflexivity. }
  split; [exact G1|].
  rewrite (sumn_ext k (fun a => at2 0 (times_transpose B) a a) (fun a => sumn k (fun c => at2 0 B c a * at2 0 B c a)))
    by (intros a Ha; apply (G1 a a Ha Ha)).
  rewrite (sumn_ext k (fun a => gram a a) (fun a => sumn k (fun c => at2 0 B a c * at2 0 B a c))) by (intros a Ha; apply (G1 a a Ha Ha)).
  apply sumn_swap.
Qed.
Print Assumptions C39_stored_matrices.

(** C33: the constructor produces such objects. *)
Theorem C33_constructor :
  forall argsort ripser X n_landmarks dm prime maxdim N d r dist,
  (forall l, is_argsort Rle 0%R l (argsort l)) ->
  documented_input X dm N d -> (1 <= maxdim)%Z -> (2 <= prime)%Z ->
  ripser (given_to_ripser X dm) dm prime maxdim n_landmarks = Ok r ->
  ripser_contract N (Z.to_nat maxdim) r ->
  (* at most the requested number of landmarks *)
  (Z.of_nat (length (r_idx_perm r)) <= n_landmarks)%Z -> (length (r_idx_perm r) <= 2345)%nat ->
  (* 1-cocycles: pairs of distinct points, values in the field *)
  (forall cs c, nth_error (r_cocycles r) 1 = Some cs -> In c cs -> c_dim c = 1%nat /\
     forall row, In row (c_rows c) -> length (fst row) = 2%nat /\ NoDup (fst row) /\ (0 <= snd row < prime)%Z) ->
  (* distances from landmarks to data points *)
  landmark_distances X dm N d r dist -> (forall i b y, entry dist i b y -> 0 <= y) ->
  exists x, toroidal_init argsort ripser X n_landmarks dm prime maxdim = Ok x /\
    consistent x (length (r_idx_perm r)) (n_data dm N d) /\ field_valued x /\
    ((forall i j vi vj y, nth_error (r_idx_perm r) i = Some vi -> nth_error (r_idx_perm r) j = Some vj ->
        entry dist i (Z.to_nat vj) y -> entry dist j (Z.to_nat vi) y) ->
     (forall i j vj b y d1 d2, nth_error (r_idx_perm r) j = Some vj ->
        entry dist i (Z.to_nat vj) y -> entry dist i b d1 -> entry dist j b d2 -> y <= d1 + d2) ->
     metric x).
Proof.
  intros argsort ripser X nl dm prime maxdim N d r dist Ha Hin Hm Hp Er Hc Hnl Hn2 Hcoc Ed Hnn.
  rewrite (given_ok _ _ _ _ Hin) in Er. apply (landmark_distances_ok _ _ _ _ _ _ _ Hin Hc) in Ed.
  destruct (em_init_ok argsort ripser X nl dm prime maxdim N d r Ha Hin Hm Er Hc) as
    (e & dist' & Ee & P1 & P2 & P3 & P4 & P5 & P6 & P7 & _ & _ & P8 & P9 & P10).
  rewrite Ed in P5; injection P5 as <-.
  destruct (dist_ok X dm N d (Z.to_nat maxdim) r Hin Hc) as (dist' & Q1 & Q2 & _). rewrite Ed in Q1; injection Q1 as <-.
  pose proof Hc as (R1 & R2 & R3 & R4 & R5 & R6 & R7 & R8).
  assert (Fi : Forall (fun v => (0 <= v < Z.of_nat (n_data dm N d))%Z) (r_idx_perm r)).
  { eapply Forall_impl; [|exact R3]. cbv beta; intros v Hv. unfold n_data; destruct dm; [|exact Hv]. destruct Hin as (_ & _ & Hd). specialize (Hd eq_refl). lia. }
  destruct (land_land_ok _ _ dist (r_idx_perm r) Q2 Fi) as (ll & El & Ml & Hl). rewrite P7 in El; injection El as El.
  exists (mkTor e (combinatorial_number_system_table (Z.to_nat nl) 2) None None None).
  split; [unfold toroidal_init; rewrite Ee; reflexivity|].
  assert (D1 : exists dgm, nth_error (r_dgms r) 1 = Some dgm).
  { destruct (nth_error (r_dgms r) 1) as [g|] eqn:Eg; [exists g; reflexivity|]. apply nth_error_None in Eg; lia. }
  destruct D1 as (dgm & Edgm).
  assert (D2 : exists cs, nth_error (r_cocycles r) 1 = Some cs).
  { destruct (nth_error (r_cocycles r) 1) as [g|] eqn:Eg; [exists g; reflexivity|]. apply nth_error_None in Eg; lia. }
  destruct D2 as (cs & Ecs). pose proof (R7 1%nat dgm cs ltac:(lia) Edgm Ecs) as Lcs.
  destruct (P10 1%nat dgm cs Edgm Ecs) as (G1 & cs' & G2 & G3).
  assert (Lt : ((1 <=? 1)%nat && (1 <=? Z.to_nat maxdim)%nat)%bool = true).
  { apply andb_true_iff; split; apply Nat.leb_le; lia. }
  rewrite Lt in G1, G3. set (p := argsort (map key dgm)) in *.
  assert (Pp : Permutation p (seq 0 (length dgm))).
  { apply (sorted_of_perm argsort Ha dgm). }
  assert (Good : forall c, In c cs' -> exists c0, In c0 cs /\ renamed (r_idx_perm r) c0 c).
  { intros c Hin'. apply In_nth_error in Hin'; destruct Hin' as (i & Hi). destruct (f2_nth2 _ _ _ _ _ G3 Hi) as (c0 & Hc0 & Rn).
    exists c0; split; [|exact Rn]. rewrite nth_error_map in Hc0. destruct (nth_error p i) as [q|] eqn:Eq; [|discriminate]. cbn in Hc0; injection Hc0 as <-.
    apply nth_In. apply nth_error_In in Eq. apply (Permutation_in _ Pp) in Eq. apply in_seq in Eq. lia. }
  split; [|split].
  - constructor; cbn [t_em t_table].
    + exact P3.
    + split; [|exact Hn2]. destruct (r_idx_perm r); [congruence|cbn; lia].
    + rewrite El; exact Ml.
    + rewrite P4; exact Q2.
    + rewrite P4; exact Hnn.
    + exists (Z.to_nat nl); split; [lia|reflexivity].
    + rewrite P1; exact Hp.
    + exists (map (fun k => nth k dgm (0, 0)) p), cs'. split; [exact G1|]. split; [exact G2|].
      split; [pose proof (f2_length G3) as Q; rewrite map_length in Q |- *; congruence|].
      apply Forall_forall; intros c Hin'. destruct (Good c Hin') as (c0 & Hc0 & (Rd & Rr)).
      destruct (Hcoc cs c0 Ecs Hc0) as [K1 K2]. split; [congruence|].
      apply Forall_forall; intros row' Hrow'. apply In_nth_error in Hrow'; destruct Hrow' as (i & Hi).
      destruct (f2_nth2 _ _ _ _ _ Rr Hi) as (row & Hrow & _ & Fv). destruct (K2 row (nth_error_In _ _ Hrow)) as (K3 & K4 & _).
      split; [rewrite <- (f2_length Fv); exact K3|]. split.
      * apply (NoDup_map_inv (fun v' => nth (Z.to_nat v') (r_idx_perm r) 0%Z)). 
        assert (Em : map (fun v' => nth (Z.to_nat v') (r_idx_perm r) 0%Z) (fst row') = fst row).
        { clear - Fv. induction Fv as [|v v' l l' [_ Hv] F IH]; [reflexivity|]. cbn [map]. rewrite IH, (nth_error_nth _ _ 0%Z Hv); reflexivity. }
        rewrite Em; exact K4.
      * apply Forall_forall; intros v' Hv'. apply In_nth_error in Hv'; destruct Hv' as (j & Hj).
        destruct (f2_nth2 _ _ _ _ _ Fv Hj) as (v & _ & V1 & V2). split; [exact V1|]. apply some_lt in V2. lia.
  - intros cs1 c row' E1 Hc1 Hrow'. cbn [t_em] in *. rewrite G2 in E1; injection E1 as <-. rewrite P1.
    destruct (Good c Hc1) as (c0 & Hc0 & (Rd & Rr)). destruct (Hcoc cs c0 Ecs Hc0) as [_ K2].
    apply In_nth_error in Hrow'; destruct Hrow' as (i & Hi).
    destruct (f2_nth2 _ _ _ _ _ Rr Hi) as (row & Hrow & -> & _). apply (K2 row (nth_error_In _ _ Hrow)).
  - intros Sy Tr. split; cbn [t_em]; rewrite El, ?P4.
    + intros i j y Hy. destruct (entry_bounds _ _ _ _ _ _ Ml Hy) as [Bi Bj].
      destruct (nth_error (r_idx_perm r) j) as [vj|] eqn:Ej; [|apply nth_error_None in Ej; lia].
      destruct (nth_error (r_idx_perm r) i) as [vi|] eqn:Ei; [|apply nth_error_None in Ei; lia].
      apply (Hl j i vi y Ei). split; [lia|]. apply (Hl i j vj y Ej) in Hy. apply (Sy i j vi vj y Ei Ej), Hy.
    + intros i j b y d1 d2 Hy H1 H2. destruct (entry_bounds _ _ _ _ _ _ Ml Hy) as [Bi Bj].
      destruct (nth_error (r_idx_perm r) j) as [vj|] eqn:Ej; [|apply nth_error_None in Ej; lia].
      apply (Hl i j vj y Ej) in Hy. apply (Tr i j vj b y d1 d2 Ej (proj2 Hy) H1 H2).
Qed.
Print Assumptions C33_constructor.
