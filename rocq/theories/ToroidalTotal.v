(** ToroidalTotal.v -- when the second half of get_coordinates succeeds. *)
From Coq Require Import Sorted Permutation.
From Verif Require Import Base BaseProofs CombinatorialModel SpecSimplex CombinatorialProofs
  DeltaModel SpecRips RipsProofs DeltaProofs DeltaFacts RealBase RealSum SpecRepair RepairModel RepairProofs
  EMModel SpecEM EMProofs CircleModel SpecCircle CircleProofs LLLModel SpecLLL LLLProofs
  CohomologyModel SpecCohomology CohomologyProofs PropDelta PropRepair PropCohomology PropEM PropCircle PropLLL
  ToroidalModel SpecToroidal ToroidalProofs ToroidalFacts ToroidalCalls SpecHarmonic HarmonicProofs.
Local Open Scope R_scope.

Section Total.
Variables (x : tor) (n N : nat) (ext : externals).
Hypothesis C : consistent x n N.
Hypothesis HE : sound_numpy ext.
Variables (f : R -> R -> R) (t : R).
Hypothesis Hf : bump f (t / 2).
Notation ll := (em_dist_land_land (t_em x)).
Notation T := (t_table x).
Notation vp := (get_covering_partition (t_em x) (t / 2) f).

Lemma matrices_ok : exists M0 W,
  make_delta0 Rltb (x_junk ext) ll t T = Ok M0 /\ make_inner_product Rltb (x_junk ext) ll t T = Ok W.
Proof.
  destruct (sq_ll x n N C) as [Sq L]. destruct (co_table _ _ _ C) as (n' & Hn' & ET). pose proof (co_pos _ _ _ C) as Hp.
  rewrite ET. eexists; eexists; split.
  - apply (delta0_ok Rltb (x_junk ext) ll t n' 2 Sq ltac:(lia) ltac:(lia)). apply edges_fit; lia.
  - apply (inner_product_ok Rltb (x_junk ext) ll t n' 2 Sq ltac:(lia) ltac:(lia)). pose proof (comb_2 (length ll)); nia.
Qed.

Lemma parts_ok M0 W etas : make_delta0 Rltb (x_junk ext) ll t T = Ok M0 -> make_inner_product Rltb (x_junk ext) ll t T = Ok W ->
  Forall (fun v => length v = comb n 2) etas ->
  exists hf A,
    map_res (fun c => integrate_harmonic_representative (x_lsqr ext) c M0 (snd W)) etas = Ok hf /\
    map_res (fun hi => sparse_integrate (fst hi) (snd hi) (fst vp) (snd vp) ll t T) hf = Ok A /\
    Forall (fun hi => length (fst hi) = comb n 2) hf.
Proof.
  intros E0 EW F. destruct (sq_ll x n N C) as [Sq L]. destruct (co_table _ _ _ C) as (n' & Hn' & ET). pose proof (co_pos _ _ _ C) as Hp.
  induction F as [|c l Lc F (hf & A & E1 & E2 & E3)]; [exists [], []; split; [reflexivity|split; [reflexivity|constructor]]|].
  rewrite ET in E0, EW.
  destruct (integrate_ok ll t n' 2 Sq ltac:(lia) ltac:(lia) (x_lsqr ext) c (x_junk ext) M0 W ltac:(lia) (proj2 HE) E0 EW ltac:(congruence))
    as (P & b & g & h & Ei & _ & _ & _ & Lg & Lh & _).
  destruct (row_ok x n N C f (t / 2) t Hf h g ltac:(congruence) ltac:(congruence)) as (row & Er & _ & _).
  exists ((h, g) :: hf), (row :: A). cbn [map_res]. rewrite Ei; cbn [bind]. rewrite E1; cbn [bind fst snd map_res].
  rewrite Er; cbn [bind]. rewrite E2. split; [reflexivity|]. split; [reflexivity|]. constructor; [cbn [fst]; congruence|exact E3].
Qed.

Lemma coordinates_total lifted vecs etas (check : bool) :
  map_res (fun c => sparse_cocycle_to_vector (x_argsort ext) c T n) lifted = Ok vecs ->
  (if check then repair_all Rltb (x_junk ext) (em_prime (t_em x)) (x_milp ext) ll t T vecs else Ok vecs) = Ok etas ->
  Forall (fun v => length v = comb n 2) etas ->
  exists M0 W hf A gm,
    make_delta0 Rltb (x_junk ext) ll t T = Ok M0 /\ make_inner_product Rltb (x_junk ext) ll t T = Ok W /\
    map_res (fun c => integrate_harmonic_representative (x_lsqr ext) c M0 (snd W)) etas = Ok hf /\
    map_res (fun hi => sparse_integrate (fst hi) (snd hi) (fst vp) (snd vp) ll t T) hf = Ok A /\
    gram_matrix (map fst hf) (fst W) = Ok gm /\
    coordinates ext (t_em x) T lifted (t / 2) t f check =
      if (1 <? length lifted)%nat then
        r <- reduce_circular_coordinates (x_fuel ext) (x_cholesky ext) A gm ;;
        Ok (fst (fst r), Some (gm, times_transpose (snd r), snd (fst r)))
      else Ok (A, None).
Proof.
  intros Ev Er F. destruct matrices_ok as (M0 & W & E0 & EW). destruct (parts_ok M0 W etas E0 EW F) as (hf & A & E1 & E2 & E3).
  destruct (sq_ll x n N C) as [Sq L]. destruct (co_table _ _ _ C) as (n' & Hn' & ET). pose proof (co_pos _ _ _ C) as Hp.
  pose proof EW as EW'. rewrite ET in EW'.
  destruct (gram_ok ll t n' 2 Sq ltac:(lia) ltac:(lia) ltac:(lia) (x_junk ext) W EW' (map fst hf)) as (gm & Eg & _).
  { rewrite Forall_map. eapply Forall_impl; [|exact E3]. cbv beta; intros; congruence. }
  exists M0, W, hf, A, gm. repeat match goal with |- _ /\ _ => split; [assumption|] end.
  unfold coordinates. destruct vp as [varphi ball]; cbn [fst snd] in *. rewrite E0; cbn [bind].
  rewrite (co_landmarks _ _ _ C), Ev; cbn [bind]. rewrite Er; cbn [bind]. rewrite EW; cbn [bind]. rewrite E1; cbn [bind].
  rewrite E2; cbn [bind]. rewrite Eg; cbn [bind]. reflexivity.
Qed.
End Total.
