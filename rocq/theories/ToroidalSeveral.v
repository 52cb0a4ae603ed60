(** ToroidalSeveral.v -- calls with several classes: what is given to the Cholesky factorisation
    and to the lattice reduction. *)
From Coq Require Import Sorted Permutation Relations.
From Verif Require Import Base BaseProofs CombinatorialModel SpecSimplex CombinatorialProofs
  DeltaModel SpecRips RipsProofs DeltaProofs DeltaFacts RealBase RealSum SpecRepair RepairModel RepairProofs
  EMModel SpecEM EMProofs CircleModel SpecCircle CircleProofs LLLModel SpecLLL LLLProofs
  CohomologyModel SpecCohomology CohomologyProofs PropDelta PropRepair PropCohomology PropEM PropCircle PropLLL
  ToroidalModel SpecToroidal ToroidalProofs ToroidalFacts ToroidalCalls SpecHarmonic HarmonicProofs ToroidalTotal
  PropHarmonic Cholesky SpecTermination.
Local Open Scope R_scope.

Section Several.
Variables (x : tor) (n N : nat) (ext : externals) (f : R -> R -> R) (perc birth death : R) (sr check : bool) (idxs : list pyval) (lifts : list cocycle).
Hypothesis C : consistent x n N.
Hypothesis FV : field_valued x.
Hypothesis HE : sound_numpy ext.
Hypothesis HL : least_squares (x_lsqr ext).
Hypothesis Hf : forall r, bump f r.
Hypothesis Hsel : selected x idxs lifts birth death.
Hypothesis Hbd : birth < death.
Notation start := (if sr then 2 * birth else birth).
Hypothesis Hst : start <= death.
Notation t := ((1 - perc) * start + perc * death).
Notation dm := (em_dist_land_land (t_em x)).
Notation T := (t_table x).
Notation k := (length idxs).
Hypothesis Hch : check = true -> Forall (fun l => cocycle_on dm t (fun v => v = 0%Z) (sparse_edge l)) lifts.
Hypothesis Hk : (1 < k)%nat.
Notation eta h i j := (match nth_error lifts h with Some c => sparse_edge c i j | None => 0%Z end).

Lemma lifts_length : length lifts = k.
Proof. destruct Hsel as (F & _). symmetry. exact (f2_length F). Qed.

Lemma lifts_edge_cocycles : Forall (edge_cocycle n) lifts.
Proof.
  destruct Hsel as (F & _). clear - F C. induction F as [|q l qs ls (b & d & c & H1 & H2 & _) F IH]; [constructor|]. constructor; [|exact IH].
  apply integer_lift_ok in H2. subst l. apply lift_edge, (class_edge_cocycle x n N C _ _ _ _ H1).
Qed.

Lemma front turns : snd (get_coordinates (with_turns ext turns) x perc idxs f sr check) =
  (r <- coordinates (with_turns ext turns) (t_em x) T lifts (t / 2) t f check ;; Ok (fst r)).
Proof.
  destruct Hsel as (F & (k1 & d1 & c1 & I1 & C1) & (k2 & b2 & c2 & I2 & C2)).
  assert (Fc : Forall (fun k => exists b d c, class_of x k b d c) idxs).
  { clear - F. induction F as [|q l qs ls (b & d & c & H1 & _) F IH]; constructor; [eauto|exact IH]. }
  destruct (classes_reps x idxs Fc) as (reps & Er & Fr).
  destruct (co_classes _ _ _ C) as (dgm & cs & E1 & E2 & L & Fe).
  assert (Nn : idxs <> []) by (intros Z; rewrite Z in Hk; cbn in Hk; lia).
  destruct (call_front (with_turns ext turns) x perc idxs f sr check reps dgm cs E1 E2 L Er Nn) as (b & d & B1 & B2 & D1 & D2 & _ & G).
  assert (Bnd : forall q b0 d0 c0, In q idxs -> class_of x q b0 d0 c0 -> b0 <= birth /\ death <= d0).
  { clear - F. intros q b0 d0 c0 Hq Hc. induction F as [|q' l qs ls (b1 & d1 & c1 & H1 & _ & H3 & H4) F IH]; [contradiction|].
    destruct Hq as [->|Hq]; [|auto]. apply em_class1 in H1, Hc. rewrite Hc in H1. injection H1 as -> -> ->. auto. }
  assert (Eb : b = birth).
  { apply Rle_antisym.
    - destruct (in_reps_birth x idxs reps b Fr B1) as (q & d0 & c0 & I & Q). apply (Bnd q _ _ _ I Q).
    - apply B2. destruct (In_nth_error _ _ I1) as (a & Ha). destruct (f2_nth _ _ _ _ _ Fr Ha) as ([[b0 d0] c0] & Hr & Q). cbn [fst snd] in Q.
      apply em_class1 in Q. apply em_class1 in C1. rewrite C1 in Q. injection Q as -> -> ->.
      apply (in_map (fun r => fst (fst r)) reps (b0, d0, c0)), (nth_error_In _ _ Hr). }
  assert (Ed : d = death).
  { apply Rle_antisym.
    - apply D2. destruct (In_nth_error _ _ I2) as (a & Ha). destruct (f2_nth _ _ _ _ _ Fr Ha) as ([[b0 d0] c0] & Hr & Q). cbn [fst snd] in Q.
      apply em_class1 in Q. apply em_class1 in C2. rewrite C2 in Q. injection Q as -> -> ->.
      apply (in_map (fun r => snd (fst r)) reps (b0, d0, c0)), (nth_error_In _ _ Hr).
    - destruct (in_reps_death x idxs reps d Fr D1) as (q & b0 & c0 & I & Q). apply (Bnd q _ _ _ I Q). }
  subst b d. destruct (G Hbd) as (store & cs' & N1 & L1 & H1 & _ & _ & G2). destruct (G2 Hst) as (_ & _ & G3). cbv zeta in G3. rewrite G3.
  assert (El : map (fun k => nth (posn (length cs) k) cs' no_c) idxs = lifts); [|rewrite El; reflexivity].
  assert (P : forall q, In q idxs -> forall b0 d0 c0, class_of x q b0 d0 c0 -> nth (posn (length cs) q) cs' no_c = lift_to_integer_cocycle (em_prime (t_em x)) c0).
  { intros q Hq b0 d0 c0 Hc0. destruct (get_rep_inv x n N q b0 d0 c0 C Hc0) as (dgm2 & cs2 & i & _ & Q2 & _ & Ep & _ & Ec). rewrite E2 in Q2; injection Q2 as <-.
    unfold posn; rewrite Ep. rewrite (nth_error_nth _ _ _ (H1 i c0 Ec)).
    pose proof (times_pos _ idxs q i Hq Ep). destruct (times (length cs) idxs i) as [|m]; [lia|]. apply iter_lift_field; [apply (co_prime _ _ _ C)|].
    apply Forall_forall; intros rw Hr. apply (FV cs c0 rw E2 (nth_error_In _ _ Ec) Hr). }
  clear - F P. induction F as [|q l qs ls (b & d & c & H1 & H2 & _) F IH]; [reflexivity|]. cbn [map]. f_equal.
  - rewrite (P q (or_introl eq_refl) _ _ _ H1). symmetry. apply integer_lift_ok, H2.
  - apply IH. intros; eapply P; [right; eassumption|eassumption].
Qed.

Lemma several : exists A gm (hs : nat -> nat -> nat -> R) (gs : nat -> nat -> R),
  matrix k k gm /\ length A = k /\
  (forall turns, snd (get_coordinates (with_turns ext turns) x perc idxs f sr check) =
     (r <- reduce_circular_coordinates turns (x_cholesky ext) A gm ;; Ok (fst (fst r)))) /\
  (forall a b, (a < k)%nat -> (b < k)%nat -> at2 0 gm a b = edge_sum dm t (fun i j => hs a i j * hs b i j)) /\
  (forall a i j, (a < k)%nat -> (i < j < n)%nat -> close Rltb dm t i j -> hs a i j = IZR (eta a i j) - (gs a i - gs a j)) /\
  (forall a, (a < k)%nat -> forall y : nat -> R, edge_sum dm t (fun i j => hs a i j * (y i - y j)) = 0).
Proof.
  destruct (vecs_ok x n N ext C HE lifts lifts_edge_cocycles) as (vecs & Ev & Fv). rewrite (co_landmarks _ _ _ C) in Ev.
  destruct (sq_ll x n N C) as [Sq Ln]. destruct (co_table _ _ _ C) as (n' & Hn' & ET). pose proof (co_pos _ _ _ C) as Hp.
  pose proof (map_res_length _ _ _ Ev) as Lv. pose proof lifts_length as Ll.
  assert (Rep : (if check then repair_all Rltb (x_junk ext) (em_prime (t_em x)) (x_milp ext) dm t T vecs else Ok vecs) = Ok vecs).
  { destruct check; [|reflexivity]. specialize (Hch eq_refl). unfold repair_all. rewrite ET.
    rewrite (loop_keep Rltb dm t n' 2); [reflexivity|exact Sq|lia..| | |].
    - rewrite map_length. unfold range; rewrite seq_length. lia.
    - eapply Forall_impl; [|exact Fv]. cbv beta. intros v ->. rewrite Ln. apply comb_is_binomial.
    - apply map_res_ok2 in Ev. rewrite <- ET. pose proof lifts_edge_cocycles as Fe. revert Fe Hch. revert Ev. generalize lifts. clear - C HE. intros ls F.
      induction F as [|l v ls vs E F IH]; intros Fe Hc; constructor; inversion Fe; inversion Hc; subst.
      + apply (vec_cocycle x n N C ext HE l t v); assumption.
      + apply IH; assumption. }
  destruct (coordinates_total x n N ext C HE f t (Hf _) lifts vecs vecs check Ev Rep Fv) as (M0 & W & hf & A & gm & E0 & EW & Eh & EA & Eg & Ecoord).
  pose proof (map_res_length _ _ _ Eh) as Lh. pose proof (map_res_length _ _ _ EA) as LA.
  assert (Lk : length hf = k) by congruence.
  assert (Fh : Forall (fun h => length h = comb (length dm) 2) (map fst hf)).
  { rewrite Forall_map. apply Forall_forall; intros [h g] Hin. cbn [fst]. apply In_nth_error in Hin; destruct Hin as (i & Hi).
    pose proof Eh as Eh'. apply map_res_ok2 in Eh'. destruct (f2_nth2 _ _ _ _ _ Eh' Hi) as (c & Hc & Ei).
    rewrite Forall_forall in Fv. pose proof (Fv c (nth_error_In _ _ Hc)) as Lc.
    destruct (harmonic_value x n N C t ext (x_junk ext) M0 W c h g _ (proj2 HE) E0 EW Lc Ei (eta_of_anti x n N C c Lc)) as (_ & Lhh & _). congruence. }
  pose proof EW as EW'. rewrite ET in EW'.
  destruct (gram_ok dm t n' 2 Sq ltac:(lia) ltac:(lia) ltac:(lia) (x_junk ext) W EW' (map fst hf) Fh) as (gm' & Eg' & Hg).
  rewrite Eg in Eg'; injection Eg' as <-. rewrite <- ET in Hg.
  pose proof (gram_shape _ _ _ Eg) as Mg. rewrite map_length, Lk in Mg.
  exists A, gm, (fun a i j => edge_value T (nth a (map fst hf) []) i j), (fun a i => nth i (nth a (map snd hf) []) 0).
  split; [exact Mg|]. split; [congruence|]. split; [|split; [|]].
  - intros turns. rewrite front.
    destruct (coordinates_total x n N (with_turns ext turns) C HE f t (Hf _) lifts vecs vecs check Ev Rep Fv) as (M0' & W' & hf' & A' & gm' & E0' & EW'' & Eh' & EA' & Eg' & Ecoord').
    cbn [with_turns x_argsort x_milp x_lsqr x_cholesky x_junk x_fuel] in E0', EW'', Eh', Ecoord'.
    rewrite E0 in E0'; injection E0' as <-. rewrite EW in EW''; injection EW'' as <-. rewrite Eh in Eh'; injection Eh' as <-.
    rewrite EA in EA'; injection EA' as <-. rewrite Eg in Eg'; injection Eg' as <-.
    rewrite Ecoord'. rewrite Ll. apply Nat.ltb_lt in Hk. rewrite Hk. clear Ecoord Ecoord'. destruct (reduce_circular_coordinates _ _ _ _); reflexivity.
  - intros a b Ha Hb. apply (Hg a b); apply nth_error_nth'; rewrite map_length; lia.
  - assert (Q : forall a, (a < k)%nat -> let g i := nth i (nth a (map snd hf) []) 0 in
      (forall i j, (i < j < n)%nat -> close Rltb dm t i j -> edge_value T (nth a (map fst hf) []) i j = IZR (eta a i j) - (g i - g j)) /\
      (forall y : nat -> R, edge_sum dm t (fun i j => edge_value T (nth a (map fst hf) []) i j * (y i - y j)) = 0)).
    { intros a Ha. destruct (nth_error lifts a) as [l|] eqn:El; [|apply nth_error_None in El; lia].
      destruct (map_res_nth _ _ _ _ _ Ev El) as (v & Hv & Evv). destruct (map_res_nth _ _ _ _ _ Eh Hv) as ([h g] & Hh & Ei).
      pose proof (nth_error_nth (map fst hf) a [] (map_nth_error fst _ _ Hh)) as En. cbn [fst] in En. rewrite En.
      pose proof (nth_error_nth (map snd hf) a [] (map_nth_error snd _ _ Hh)) as Es. cbn [snd] in Es. rewrite Es.
      rewrite Forall_forall in Fv. pose proof (Fv v (nth_error_In _ _ Hv)) as Lc.
      destruct (C52_harmonic_representative x n N ext t v C HL) as (M0' & W' & h' & g' & E0' & EW'' & Ei' & Hd & Ho & _).
      { rewrite Lc. apply comb_is_binomial. }
      rewrite E0 in E0'; injection E0' as <-. rewrite EW in EW''; injection EW'' as <-. rewrite Ei in Ei'; injection Ei' as <- <-.
      cbv zeta. split; [|exact Ho]. intros i j Hij Hcl. rewrite Hd by assumption. f_equal.
      pose proof lifts_edge_cocycles as Fe. rewrite Forall_forall in Fe.
      destruct (dense_value x n N C ext HE l v (Fe l (nth_error_In _ _ El)) Evv i j Hij) as (q & Q1 & Q2). unfold edge_value. rewrite Q1.
      apply nth_error_nth. rewrite nth_error_map, Q2. reflexivity. }
    split; [intros a i j Ha; apply (Q a Ha)|intros a Ha; apply (Q a Ha)].
Qed.

(** The Gram matrix is positive definite exactly for independent classes. *)
Lemma gram_quad gm (hs : nat -> nat -> nat -> R) (a : nat -> R) :
  (forall p q, (p < k)%nat -> (q < k)%nat -> at2 0 gm p q = edge_sum dm t (fun i j => hs p i j * hs q i j)) ->
  sumn k (fun p => sumn k (fun q => a p * a q * at2 0 gm p q)) = edge_sum dm t (fun i j => sumn k (fun p => a p * hs p i j) * sumn k (fun p => a p * hs p i j)).
Proof.
  intros H. rewrite edge_bilinear. apply sumn_ext; intros p Hp. apply sumn_ext; intros q Hq. rewrite H by assumption. reflexivity.
Qed.
Lemma gram_independent gm (hs : nat -> nat -> nat -> R) (gs : nat -> nat -> R) :
  (forall p q, (p < k)%nat -> (q < k)%nat -> at2 0 gm p q = edge_sum dm t (fun i j => hs p i j * hs q i j)) ->
  (forall a i j, (a < k)%nat -> (i < j < n)%nat -> close Rltb dm t i j -> hs a i j = IZR (eta a i j) - (gs a i - gs a j)) ->
  (forall a, (a < k)%nat -> forall y : nat -> R, edge_sum dm t (fun i j => hs a i j * (y i - y j)) = 0) ->
  symmetric k gm /\ (positive_definite k gm <-> independent_cochains dm t lifts).
Proof.
  intros H1 H2 H3. destruct (sq_ll x n N C) as [Sq Ln]. destruct (co_table _ _ _ C) as (n' & Hn' & ET).
  assert (Comb : forall a i j, (i < j < n)%nat -> close Rltb dm t i j ->
     sumn k (fun p => a p * hs p i j) = sumn k (fun h => a h * IZR (eta h i j)) - (sumn k (fun p => a p * gs p i) - sumn k (fun p => a p * gs p j))).
  { intros a i j Hij Hcl. rewrite <- !sumn_sub. apply sumn_ext; intros p Hp. rewrite (H2 p i j Hp Hij Hcl). ring. }
  split; [|split].
  - intros p q Hp Hq. rewrite !H1 by assumption. apply (edge_sum_ext dm t n' 2 Sq ltac:(lia) ltac:(lia)). intros; ring.
  - intros P a y Hy h Hh. rewrite lifts_length in Hy, Hh. destruct (Req_dec (a h) 0) as [E|E]; [exact E|]. exfalso.
    specialize (P a (ex_intro _ h (conj Hh E))). rewrite (gram_quad gm hs a H1) in P.
    set (z := fun i => y i - sumn k (fun p => a p * gs p i)).
    assert (Z : edge_sum dm t (fun i j => sumn k (fun p => a p * hs p i j) * sumn k (fun p => a p * hs p i j)) = 0); [|lra].
    rewrite (edge_sum_ext dm t n' 2 Sq ltac:(lia) ltac:(lia) _ (fun i j => sumn k (fun p => a p * (hs p i j * (z i - z j))))).
    + assert (G : forall m, (m <= k)%nat -> edge_sum dm t (fun i j => sumn m (fun p => a p * (hs p i j * (z i - z j)))) = 0).
      { induction m as [|m IH]; intros Hm.
        - cbn [sumn]. unfold edge_sum. apply sumn_0; intros j Hj. apply sumn_0; intros i Hi. destruct (Rlt_dec _ _); reflexivity.
        - cbn [sumn]. rewrite (edge_sum_add dm t). rewrite IH by lia. rewrite (edge_sum_scal dm t). rewrite H3 by lia. ring. }
      apply G; lia.
    + intros i j Hij Hcl. rewrite Ln in Hij. rewrite (sumn_ext k (fun p => a p * (hs p i j * (z i - z j))) (fun p => a p * hs p i j * (z i - z j))) by (intros; ring). rewrite sumn_scal_r.
      f_equal. rewrite (Comb a i j Hij Hcl), (Hy i j ltac:(rewrite Ln; exact Hij) Hcl). unfold z. ring.
  - intros I a (h & Hh & E). rewrite (gram_quad gm hs a H1).
    assert (Nn : forall i j, 0 <= sumn k (fun p => a p * hs p i j) * sumn k (fun p => a p * hs p i j)) by (intros; apply Rle_0_sqr).
    destruct (Rle_lt_or_eq_dec 0 _ (edge_sum_nonneg dm t _ Nn)) as [L|Z]; [exact L|]. exfalso. apply E.
    apply (I a (fun i => sumn k (fun p => a p * gs p i))); [|rewrite lifts_length; exact Hh].
    intros i j Hij Hcl. rewrite lifts_length. rewrite Ln in Hij. symmetry in Z.
    pose proof (edge_sum_zero dm t n' 2 Sq ltac:(lia) ltac:(lia) _ Nn Z i j ltac:(rewrite Ln; exact Hij) Hcl) as Q. cbv beta in Q.
    assert (Q' : sumn k (fun p => a p * hs p i j) = 0) by (apply Rsqr_0_uniq; exact Q).
    rewrite (Comb a i j Hij Hcl) in Q'. lra.
Qed.
End Several.

(** The rest of the call after a factorisation and a reduction that succeed. *)
Lemma reduce_returns m A gm L cholesky turns B' change : (1 <= m)%nat -> length A = m -> matrix m m L -> cholesky gm = Ok L ->
  (forall more, lll (turns + more) L = Ok (B', change)) ->
  exists rows, forall more, reduce_circular_coordinates (turns + more) cholesky A gm = Ok (rows, change, B').
Proof.
  intros Hm LA ML EL El. pose proof (El 0%nat) as El0.
  destruct (C37_result _ L _ B' change ML El0) as (_ & (U & (MU & _) & -> & _) & _).
  assert (E : exists rows, linear_combination A (Coeffs2 (map (map IZR) U)) = Ok (Maps2 rows)).
  { unfold linear_combination.
    assert (NA : negb (length A =? 0)%nat = true) by (rewrite LA; destruct m; [lia|reflexivity]). rewrite NA.
    assert (Hh : (length A =? length (hd [] (map (map IZR) U)))%nat = true).
    { apply Nat.eqb_eq. destruct MU as [LU FU]. destruct U as [|u U]; [cbn in LU; lia|]. inversion FU; subst. cbn [map hd]. rewrite map_length. congruence. }
    rewrite Hh. cbn [bind]. eexists; reflexivity. }
  destruct E as [rows E]. exists rows. intros more. unfold reduce_circular_coordinates. rewrite EL; cbn [bind]. rewrite El; cbn [bind fst snd]. rewrite E; reflexivity.
Qed.
