(** PropTheta.v -- a concrete object: the theta graph.  Five landmarks, two of them at distance
    1 from the three others; everything else at distance 2.  Between scales 1 and 2 its Rips
    complex is a graph with two independent loops.  All hypotheses of the theorems about
    ToroidalCoords and CircularCoords hold for it, and the attribute [_gram_matrix] is not
    what its documentation says. *)
From Coq Require Import Sorted Permutation Relations.
From Verif Require Import PropTorusCalls Base BaseProofs CombinatorialModel SpecSimplex CombinatorialProofs Argsort
  DeltaModel SpecRips RipsProofs DeltaProofs DeltaFacts RealBase RealSum SpecRepair RepairModel RepairProofs
  EMModel SpecEM EMProofs CircleModel SpecCircle CircleProofs LLLModel SpecLLL LLLProofs
  CohomologyModel SpecCohomology CohomologyProofs PropDelta PropRepair PropCohomology PropEM PropCircle PropLLL
  ToroidalModel SpecToroidal ToroidalProofs ToroidalFacts ToroidalCalls SpecHarmonic HarmonicProofs ToroidalTotal
  PropHarmonic LeastSquares.
Local Open Scope R_scope.

Definition theta_dm : list (list R) :=
  [[0; 2; 1; 1; 1]; [2; 0; 1; 1; 1]; [1; 1; 0; 2; 2]; [1; 1; 2; 0; 2]; [1; 1; 2; 2; 0]].
Definition loop1 : cocycle := mkCocycle 1 [([0; 2], 1); ([1; 2], 40); ([1; 3], 1); ([0; 3], 40)]%Z.
Definition loop2 : cocycle := mkCocycle 1 [([0; 3], 1); ([1; 3], 40); ([1; 4], 1); ([0; 4], 40)]%Z.
Definition theta_em : em :=
  mkEM 41 [[]; [(1, 2); (1, 2)]] [0; 1; 2; 3; 4]%Z 5 theta_dm 0 theta_dm [[]; [loop1; loop2]] None None.
Definition theta : tor := mkTor theta_em (combinatorial_number_system_table 5 2) None None None.

(** Cholesky factors of symmetric positive definite 2 x 2 matrices. *)
Definition chol2 (G : list (list R)) : res (list (list R)) :=
  match G with
  | [[a; b]; [c; d]] =>
      if Rlt_dec 0 a then if Req_EM_T b c then if Rlt_dec 0 (d - b * b / a) then
        Ok [[sqrt a; 0]; [b / sqrt a; sqrt (d - b * b / a)]]
      else Raise LinAlgError else Raise LinAlgError else Raise LinAlgError
  | _ => Raise LinAlgError
  end.
Definition theta_ext : externals := mkExt argsort_Z (fun _ _ => None) lsq chol2 (fun _ => 7%Z) 10.

Lemma theta_numpy : sound_numpy theta_ext.
Proof.
  split; cbn [theta_ext x_argsort x_lsqr]; [apply argsort_Z_ok|]. intros A b. unfold lsq. rewrite map_length. unfold range; rewrite ?seq_length; lia.
Qed.
Lemma theta_lsqr : least_squares (x_lsqr theta_ext).
Proof. apply lsq_least_squares. Qed.
Lemma theta_cholesky : sound_cholesky theta_ext.
Proof.
  intros k G L [LG FG] E; cbn [theta_ext x_cholesky] in E. unfold chol2 in E.
  destruct G as [|[|a [|b [|]]] G]; try discriminate E. destruct G as [|[|c [|d [|]]] [|]]; try discriminate E.
  destruct (Rlt_dec 0 a) as [Ha|]; [|discriminate]. destruct (Req_EM_T b c) as [<-|]; [|discriminate].
  destruct (Rlt_dec 0 _) as [Hd|]; [|discriminate]. injection E as <-. cbn [length] in LG; subst k.
  split; [split; [reflexivity|repeat constructor]|]. intros _.
  pose proof (sqrt_lt_R0 a Ha) as Sa. pose proof (sqrt_sqrt a ltac:(lra)) as S1. pose proof (sqrt_sqrt _ (Rlt_le _ _ Hd)) as S2.
  split; [intros i j H; assert (i = 0%nat /\ j = 1%nat) as [-> ->] by lia; reflexivity|].
  split; [intros [|[|i]] H; [exact Sa|apply sqrt_lt_R0, Hd|lia]|].
  intros i j Hi Hj. destruct i as [|[|]]; [| |lia]; (destruct j as [|[|]]; [| |lia]);
    unfold at2; cbn [nth sumn]; rewrite ?Rplus_0_l.
  - rewrite S1; lra.
  - field; lra.
  - field; lra.
  - rewrite S2. set (s := sqrt a) in *. rewrite <- S1. field; lra.
Qed.
Lemma theta_entry i j d : entry theta_dm i j d -> (i < 5)%nat /\ (j < 5)%nat /\ d = at2 0 theta_dm i j.
Proof.
  intros (row & E1 & E2). assert (Hi : (i < 5)%nat) by (apply (nth_error_Some theta_dm); congruence).
  assert (Lr : length row = 5%nat).
  { pose proof (nth_error_In _ _ E1) as I. cbn [theta_dm In] in I. repeat (destruct I as [<-|I]; [reflexivity|]); contradiction. }
  assert (Hj : (j < 5)%nat) by (rewrite <- Lr; apply nth_error_Some; congruence).
  split; [exact Hi|split; [exact Hj|]]. unfold at2. rewrite (nth_error_nth _ _ _ E1), (nth_error_nth _ _ _ E2); reflexivity.
Qed.
Ltac five i H := destruct i as [|[|[|[|[|i]]]]]; [..|exfalso; clear - H; lia].
Lemma theta_consistent : consistent theta 5 5.
Proof.
  assert (M : matrix 5 5 theta_dm) by (split; [reflexivity|repeat constructor]).
  constructor; cbn [theta theta_em t_em t_table em_n_landmarks em_dist_land_land em_dist_land_data em_prime em_dgms em_cocycles]; try assumption; try lia.
  - intros i b d H. apply theta_entry in H as (Hi & Hb & ->). five i Hi; five b Hb; unfold at2; cbn [theta_dm nth]; lra.
  - exists 5%nat; split; [lia|reflexivity].
  - exists [(1, 2); (1, 2)], [loop1; loop2]. repeat split; try reflexivity.
    repeat constructor; cbn; try lia; intuition lia.
Qed.
Lemma theta_metric : metric theta.
Proof.
  split; cbn [theta theta_em t_em em_dist_land_land em_dist_land_data].
  - intros i j d H. apply theta_entry in H as (Hi & Hj & ->). five i Hi; five j Hj; unfold at2, entry; cbn [theta_dm nth];
      eexists; split; reflexivity.
  - intros i j b d d1 d2 H H1 H2. apply theta_entry in H as (Hi & Hj & ->). apply theta_entry in H1 as (_ & Hb & ->). apply theta_entry in H2 as (_ & _ & ->).
    five i Hi; five j Hj; five b Hb; unfold at2; cbn [theta_dm nth]; lra.
Qed.
Lemma theta_field : field_valued theta.
Proof.
  intros cs c row H1 H2 H3. cbn in H1; injection H1 as <-. cbn in H2. destruct H2 as [<-|[<-|[]]]; cbn in H3;
    repeat (destruct H3 as [<-|H3]; [cbn; lia|]); contradiction.
Qed.
Lemma theta_bump : forall r, bump pu_linear r.
Proof. intros r d H; unfold pu_linear; lra. Qed.

(** The edges at scale 3/2. *)
Lemma theta_edges F : edge_sum theta_dm (3 / 2) F = F 0%nat 2%nat + F 1%nat 2%nat + F 0%nat 3%nat + F 1%nat 3%nat + F 0%nat 4%nat + F 1%nat 4%nat.
Proof.
  unfold edge_sum, theta_dm; cbn [length sumn]; unfold at2; cbn [nth].
  repeat match goal with |- context [Rlt_dec ?a ?b] => destruct (Rlt_dec a b) as [?H|?H]; [try (exfalso; lra)|try (exfalso; lra)] end.
  ring.
Qed.
Lemma theta_close i j : (i < j)%nat -> close Rltb theta_dm (3 / 2) i j -> (i < 2 <= j /\ j < 5)%nat.
Proof.
  intros H (row & d & E1 & E2 & L). apply Rltb_true in L.
  destruct (theta_entry i j d) as (Hi & Hj & ->); [exists row; auto|]. revert L H. clear E1 E2.
  five i Hi; five j Hj; unfold at2; cbn [theta_dm nth]; intros; try lia; lra.
Qed.

(** The integer cochains of the two classes. *)
Definition v1 : list Z := [0; 1; -1; -1; 1; 0; 0; 0; 0; 0]%Z.
Definition v2 : list Z := [0; 0; 0; 1; -1; 0; -1; 1; 0; 0]%Z.
Definition lifted : list cocycle := map (lift_to_integer_cocycle 41) [loop1; loop2].
Lemma theta_vectors : map_res (fun c => sparse_cocycle_to_vector argsort_Z c (combinatorial_number_system_table 5 2) 5) lifted = Ok [v1; v2].
Proof. vm_compute. reflexivity. Qed.

(** There are no triangles: the repair does nothing. *)
Lemma theta_no_rips2 t i j k : t <= 2 -> ~ rips Rltb theta_dm t 2 [i; j; k].
Proof.
  intros Ht [Sx Hd]. destruct Sx as (_ & Sx & _).
  assert (Q : forall i j, (i < j)%nat -> close Rltb theta_dm t i j -> (i < 2 <= j)%nat).
  { intros i' j' H' (row & d & E1 & E2 & L'). apply Rltb_true in L'.
    destruct (theta_entry i' j' d) as (Hi & Hj & ->); [exists row; auto|]. revert L' H'. clear - Hi Hj Ht.
    five i' Hi; five j' Hj; unfold at2; cbn [theta_dm nth]; intros; try lia; lra. }
  inversion Hd as [|? ? F1 F2]; subst. inversion F2 as [|? ? F3 _]; subst. rewrite Forall_forall in F1, F3.
  inversion Sx as [|? ? S1 S2]; subst. inversion S1 as [|? ? S3 S4]; subst. rewrite Forall_forall in S2, S4.
  pose proof (Q i j (S2 j (or_introl eq_refl)) (F1 j (or_introl eq_refl))).
  pose proof (Q j k (S4 k (or_introl eq_refl)) (F3 k (or_introl eq_refl))). lia.
Qed.
Lemma theta_no_triangle t c : t <= 2 -> one_cocycle Rltb theta_dm t (combinatorial_number_system_table 5 2) c.
Proof. intros Ht i j k a b e Hr _ _ _. exfalso. exact (theta_no_rips2 t i j k Ht Hr). Qed.
Lemma theta_cocycle_on t P eta : t <= 2 -> cocycle_on theta_dm t P eta.
Proof. intros Ht i j k Hr. exfalso. exact (theta_no_rips2 t i j k Ht Hr). Qed.

(** Both cochains are orthogonal to all coboundaries, so they are their own harmonic
    representatives, whatever least squares solver is used. *)
Lemma theta_harmonic ext c M0 W h g : least_squares (x_lsqr ext) -> In c [v1; v2] ->
  make_delta0 Rltb (x_junk ext) theta_dm (3 / 2) (t_table theta) = Ok M0 ->
  make_inner_product Rltb (x_junk ext) theta_dm (3 / 2) (t_table theta) = Ok W ->
  integrate_harmonic_representative (x_lsqr ext) c M0 (snd W) = Ok (h, g) ->
  forall i j, (i < j)%nat -> close Rltb theta_dm (3 / 2) i j -> edge_value (t_table theta) h i j = edge_value (t_table theta) (map IZR c) i j.
Proof.
  intros HL Hc E0 EW Ei.
  assert (Bc : is_binomial 5 2 (length c)).
  { replace (length c) with (comb 5 2); [apply comb_is_binomial|]. destruct Hc as [<-|[<-|[]]]; reflexivity. }
  destruct (C52_harmonic_representative theta 5 5 ext (3 / 2) c theta_consistent HL Bc) as (M0' & W' & h' & g' & E0' & EW' & Ei' & Hd & Ho & _).
  cbn [theta theta_em t_em em_dist_land_land t_table] in E0', EW', Hd, Ho. cbn [theta t_table] in E0, EW |- *.
  rewrite E0 in E0'; injection E0' as <-. rewrite EW in EW'; injection EW' as <-. rewrite Ei in Ei'; injection Ei' as <- <-.
  specialize (Ho (fun i => nth i g 0)). rewrite theta_edges in Ho.
  assert (Q : forall i j, In (i, j) [(0, 2); (1, 2); (0, 3); (1, 3); (0, 4); (1, 4)]%nat ->
     edge_value (combinatorial_number_system_table 5 2) h i j = edge_value (combinatorial_number_system_table 5 2) (map IZR c) i j - (nth i g 0 - nth j g 0)).
  { intros i j H. assert (close Rltb theta_dm (3 / 2) i j /\ (i < j < 5)%nat) as [Q1 Q2].
    { cbn [In] in H. repeat (destruct H as [H|H]; [injection H as <- <-; split; [eexists; eexists; split; [reflexivity|split; [reflexivity|apply Rltb_true; lra]]|lia]|]); contradiction. }
    apply Hd; assumption. }
  pose proof (Q 0%nat 2%nat ltac:(cbn; tauto)) as Q02. pose proof (Q 1%nat 2%nat ltac:(cbn; tauto)) as Q12.
  pose proof (Q 0%nat 3%nat ltac:(cbn; tauto)) as Q03. pose proof (Q 1%nat 3%nat ltac:(cbn; tauto)) as Q13.
  pose proof (Q 0%nat 4%nat ltac:(cbn; tauto)) as Q04. pose proof (Q 1%nat 4%nat ltac:(cbn; tauto)) as Q14. clear Q Hd.
  rewrite Q02, Q12, Q03, Q13, Q04, Q14 in Ho.
  assert (Z : forall i j, (i < 2 <= j)%nat -> (j < 5)%nat -> nth i g 0 - nth j g 0 = 0).
  { set (g0 := nth 0 g 0) in *; set (g1 := nth 1 g 0) in *; set (g2 := nth 2 g 0) in *; set (g3 := nth 3 g 0) in *; set (g4 := nth 4 g 0) in *.
    assert (S : (g0 - g2) ^ 2 + (g1 - g2) ^ 2 + (g0 - g3) ^ 2 + (g1 - g3) ^ 2 + (g0 - g4) ^ 2 + (g1 - g4) ^ 2 = 0).
    { destruct Hc as [<-|[<-|[]]]; cbn [v1 v2] in Ho;
        match type of Ho with ?a = 0 => ring_simplify; ring_simplify in Ho end; unfold edge_value in Ho; cbn in Ho; lra. }
    assert (Z0 : g0 - g2 = 0 /\ g1 - g2 = 0 /\ g0 - g3 = 0 /\ g1 - g3 = 0 /\ g0 - g4 = 0 /\ g1 - g4 = 0).
    { pose proof (pow2_ge_0 (g0 - g2)); pose proof (pow2_ge_0 (g1 - g2)); pose proof (pow2_ge_0 (g0 - g3)); pose proof (pow2_ge_0 (g1 - g3)); pose proof (pow2_ge_0 (g0 - g4)); pose proof (pow2_ge_0 (g1 - g4)).
      assert (X : forall u, u ^ 2 <= 0 -> u = 0) by (intros u Hu; nra). repeat split; apply X; lra. }
    intros i j H1 H2. destruct i as [|[|]]; [| |lia]; (destruct j as [|[|[|[|[|]]]]]; try lia); tauto. }
  intros i j Hij Hcl. destruct (theta_close i j Hij Hcl) as [H1 H2].
  destruct i as [|[|]]; [| |lia]; (destruct j as [|[|[|[|[|]]]]]; try lia); rewrite ?Q02, ?Q12, ?Q03, ?Q13, ?Q04, ?Q14, Z by lia; ring.
Qed.

Lemma map2_res {A B} (f : A -> res B) a b l : map_res f [a; b] = Ok l -> exists x y, f a = Ok x /\ f b = Ok y /\ l = [x; y].
Proof.
  cbn [map_res]. destruct (f a) as [x|]; cbn [bind]; [|discriminate]. destruct (f b) as [y|]; cbn [bind]; [|discriminate].
  intros E; injection E as <-. exists x, y; auto.
Qed.
Lemma mat2 (G : list (list R)) : matrix 2 2 G -> G = [[at2 0 G 0 0; at2 0 G 0 1]; [at2 0 G 1 0; at2 0 G 1 1]].
Proof.
  intros [L F]. destruct G as [|r0 [|r1 [|]]]; try discriminate L. inversion F as [|? ? L0 F']; subst. inversion F' as [|? ? L1 _]; subst.
  destruct r0 as [|a [|b [|]]]; try discriminate L0. destruct r1 as [|c [|d [|]]]; try discriminate L1. reflexivity.
Qed.

Lemma theta_lll fuel : lll (S fuel) [[2; 0]; [-1; sqrt 3]] = Ok ([[2; 0]; [-1; sqrt 3]], [[1; 0]; [0; 1]]).
Proof.
  set (B := [[2; 0]; [-1; sqrt 3]]).
  assert (GS : gram_schmidt B = [[2; 0]; [0; sqrt 3]]).
  { unfold gram_schmidt, B, range; cbn [length Nat.sub seq map]. unfold gs_column.
    unfold range, col; cbn [Nat.sub seq fold_left nth]. unfold proj, gs_coefficient. vred. repeat f_equal; field. }
  unfold lll, lll_init. rewrite GS. replace (eye (length B)) with [[1; 0]; [0; 1]] by reflexivity.
  pose proof (sqrt_sqrt 3 ltac:(lra)) as S3.
  assert (Mu : mu (mkLLL B [[2; 0]; [0; sqrt 3]] [[1; 0]; [0; 1]] 1) 1 0 = - (1 / 2)).
  { unfold mu, B, col; cbn [l_B l_Q nth]. vred. field. }
  cbn [lll_loop]. cbn [l_k l_B length B Nat.ltb Nat.leb]. rewrite turn_id; cbn [l_k l_Q l_B l_change Nat.sub].
  - destruct fuel; reflexivity.
  - intros j Hj. assert (j = 0%nat) as -> by lia. rewrite Mu. rewrite Rabs_Ropp, Rabs_right; lra.
  - rewrite Mu. unfold col; cbn [nth]. vred. nra.
Qed.

(** C39, refuted as documented: with the two loops as classes the change of basis is the
    identity, so the new representatives are the old ones and their inner products are those
    in [_original_gram_matrix]; [_gram_matrix] holds something else, even off the diagonal
    and for the norms. *)
Theorem C39_documented_gram_refuted :
  forall milp lsqr junk fuel, least_squares lsqr -> (forall A b, length (lsqr A b) = s_cols A) ->
  let ext := mkExt argsort_Z milp lsqr chol2 junk (S fuel) in
  exists x' rows,
    get_coordinates ext theta (1 / 2) [PyInt 0; PyInt 1] pu_linear false true = (x', Ok rows) /\
    t_change_basis x' = Some [[1; 0]; [0; 1]] /\
    t_original_gram x' = Some [[4; -2]; [-2; 4]] /\
    t_gram x' = Some [[5; - sqrt 3]; [- sqrt 3; 3]].
Proof.
  intros milp lsqr junk fuel HL Hlen ext.
  assert (HE : sound_numpy ext) by (split; [apply argsort_Z_ok|exact Hlen]).
  unfold get_coordinates. cbn [theta t_em theta_em].
  assert (ER : map_res (fun k => get_representative_cocycle theta_em k 1) [PyInt 0; PyInt 1] = Ok [(1, 2, loop1); (1, 2, loop2)]) by reflexivity.
  fold theta_em. rewrite ER. cbn [map fst snd np_max np_min fold_left].
  rewrite Rmax_left, Rmin_left by lra.
  assert (Rleb 2 1 = false) as -> by (apply Rleb_false; lra).
  assert (EL : for_in [PyInt 0; PyInt 1] (lift_stored 1) theta_em = Ok
    (mkEM 41 [[]; [(1, 2); (1, 2)]] [0; 1; 2; 3; 4]%Z 5 theta_dm 0 theta_dm [[]; lifted] None None)) by reflexivity.
  rewrite EL. unfold get_cover_radius. assert (Rltb 2 1 = false) as -> by (apply Rltb_false; lra).
  cbn [em_prime em_dgms em_idx_land em_n_landmarks em_dist_land_data em_coverage em_dist_land_land em_cocycles bind fst snd].
  replace ((1 - 1 / 2) * 1 + 1 / 2 * 2) with (3 / 2) by field.
  set (e2 := mkEM _ _ _ _ _ _ _ _ _ _).
  assert (EL2 : map_res (fun k => get_representative_cocycle e2 k 1) [PyInt 0; PyInt 1] =
    Ok [(1, 2, lift_to_integer_cocycle 41 loop1); (1, 2, lift_to_integer_cocycle 41 loop2)]) by reflexivity.
  rewrite EL2. cbn [bind map snd].
  change [lift_to_integer_cocycle 41 loop1; lift_to_integer_cocycle 41 loop2] with lifted.
  rewrite (coordinates_ext ext theta_em e2) by (repeat split; reflexivity).
  assert (ERep : repair_all Rltb junk 41 milp theta_dm (3 / 2) (combinatorial_number_system_table 5 2) [v1; v2] = Ok [v1; v2]).
  { unfold repair_all. rewrite (loop_keep Rltb theta_dm (3 / 2) 5 2); [reflexivity|..]; try lia.
    - exact (proj1 (sq_ll theta 5 5 theta_consistent)).
    - cbn; lia.
    - reflexivity.
    - repeat constructor; apply (comb_is_binomial 5 2).
    - repeat constructor; apply theta_no_triangle; lra. }
  destruct (coordinates_total theta 5 5 ext theta_consistent HE pu_linear (3 / 2) (theta_bump _) lifted [v1; v2] [v1; v2] true theta_vectors ERep
     ltac:(repeat constructor)) as (M0 & W & hf & A & gm & E0 & EW & Eh & EA & Eg & Ec).
  cbn [theta t_em t_table] in Ec. unfold theta; cbn [t_table]. rewrite Ec. change (1 <? length lifted)%nat with true. cbv iota.
  destruct (map2_res _ _ _ _ Eh) as ((h1, g1) & (h2, g2) & Eh1 & Eh2 & ->). cbn [map fst] in Eg.
  destruct (map2_res _ _ _ _ EA) as (a1 & a2 & EA1 & EA2 & ->).
  pose proof (theta_harmonic ext v1 M0 W h1 g1 HL (or_introl eq_refl) E0 EW Eh1) as H1.
  pose proof (theta_harmonic ext v2 M0 W h2 g2 HL (or_intror (or_introl eq_refl)) E0 EW Eh2) as H2.
  assert (Egm : gm = [[4; -2]; [-2; 4]]).
  { pose proof (gram_shape _ _ _ Eg) as Mg.
    destruct (sq_ll theta 5 5 theta_consistent) as [Sq _].
    destruct (integrate_ok theta_dm (3 / 2) 5 2 Sq ltac:(cbn; lia) ltac:(lia) (x_lsqr ext) v1 junk M0 W ltac:(cbn; lia) Hlen E0 EW eq_refl) as (? & ? & ? & ? & Ei & _ & _ & _ & _ & Lh1 & _).
    rewrite Eh1 in Ei; injection Ei as <- <-.
    destruct (integrate_ok theta_dm (3 / 2) 5 2 Sq ltac:(cbn; lia) ltac:(lia) (x_lsqr ext) v2 junk M0 W ltac:(cbn; lia) Hlen E0 EW eq_refl) as (? & ? & ? & ? & Ei & _ & _ & _ & _ & Lh2 & _).
    rewrite Eh2 in Ei; injection Ei as <- <-.
    destruct (gram_ok theta_dm (3 / 2) 5 2 Sq ltac:(cbn; lia) ltac:(lia) ltac:(cbn; lia) junk W EW [h1; h2]) as (gm' & Eg' & Hg).
    { repeat constructor; assumption. }
    rewrite Eg in Eg'; injection Eg' as <-. rewrite (mat2 gm Mg).
    assert (V : forall v c i j, (i < j)%nat -> close Rltb theta_dm (3 / 2) i j -> edge_value (t_table theta) v i j = edge_value (t_table theta) (map IZR c) i j ->
       edge_value (combinatorial_number_system_table 5 2) v i j = IZR (nth (rank [i; j]) c 0%Z)).
    { intros v c i j Hij Hcl Ev. destruct (theta_close i j Hij Hcl). cbn [theta t_table] in Ev. rewrite Ev.
      rewrite (edge_value_rank theta_dm 5 2) by (cbn; lia). apply nth_IZR. }
    rewrite (Hg 0%nat 0%nat h1 h1 eq_refl eq_refl), (Hg 0%nat 1%nat h1 h2 eq_refl eq_refl), (Hg 1%nat 0%nat h2 h1 eq_refl eq_refl), (Hg 1%nat 1%nat h2 h2 eq_refl eq_refl).
    assert (Q : forall h h' v v' : list _, (forall i j, (i < j)%nat -> close Rltb theta_dm (3 / 2) i j -> edge_value (t_table theta) h i j = edge_value (t_table theta) (map IZR v) i j) ->
      (forall i j, (i < j)%nat -> close Rltb theta_dm (3 / 2) i j -> edge_value (t_table theta) h' i j = edge_value (t_table theta) (map IZR v') i j) ->
      edge_sum theta_dm (3 / 2) (fun i j => edge_value (combinatorial_number_system_table 5 2) h i j * edge_value (combinatorial_number_system_table 5 2) h' i j) =
      edge_sum theta_dm (3 / 2) (fun i j => IZR (nth (rank [i; j]) v 0%Z) * IZR (nth (rank [i; j]) v' 0%Z))).
    { intros h h' v v' A1 A2. apply (edge_sum_ext theta_dm (3 / 2) 5 2 Sq ltac:(cbn; lia) ltac:(lia)). intros i j Hij Hcl.
      rewrite (V h v i j), (V h' v' i j) by (try apply A1; try apply A2; try assumption; lia). reflexivity. }
    rewrite (Q h1 h1 v1 v1 H1 H1), (Q h1 h2 v1 v2 H1 H2), (Q h2 h1 v2 v1 H2 H1), (Q h2 h2 v2 v2 H2 H2), !theta_edges.
    cbn [v1 v2 nth rank Nat.add comb]. repeat f_equal; cbn; lra. }
  subst gm. unfold reduce_circular_coordinates. cbn [ext x_cholesky x_fuel].
  assert (Ech : chol2 [[4; -2]; [-2; 4]] = Ok [[2; 0]; [-1; sqrt 3]]).
  { assert (S4 : sqrt 4 = 2) by (replace 4 with (2 * 2) by ring; apply sqrt_square; lra).
    unfold chol2. destruct (Rlt_dec 0 4); [|lra]. destruct (Req_EM_T (-2) (-2)); [|congruence].
    destruct (Rlt_dec _ _) as [|Hn]; [|elim Hn; lra]. rewrite S4. repeat f_equal; lra. }
  rewrite Ech; cbn [bind]. rewrite theta_lll; cbn [bind fst snd].
  assert (ELC : exists rows, linear_combination [a1; a2] (Coeffs2 [[1; 0]; [0; 1]]) = Ok (Maps2 rows)) by (eexists; reflexivity).
  destruct ELC as [rows ->]. cbn [bind fst snd]. eexists; exists rows. split; [reflexivity|]. cbn [t_change_basis t_original_gram t_gram].
  split; [reflexivity|]. split; [reflexivity|]. f_equal.
  pose proof (sqrt_sqrt 3 ltac:(lra)) as S3.
  unfold times_transpose, mk2, np_sum, range. cbn [length Nat.sub seq map nth fold_right]. repeat f_equal; lra.
Qed.
Print Assumptions C39_documented_gram_refuted.

(** All hypotheses of C30-C36, C38, C39, C43 hold for theta, the two loops and [theta_ext]. *)
Example theta_nonvacuous :
  consistent theta 5 5 /\ metric theta /\ field_valued theta /\
  sound_numpy theta_ext /\ sound_cholesky theta_ext /\ sound_solver theta_ext /\ least_squares (x_lsqr theta_ext) /\
  (forall r, bump pu_linear r) /\
  class_of theta (PyInt 0) 1 2 loop1 /\ class_of theta (PyInt 1) 1 2 loop2 /\ class_of theta (PyInt (-1)) 1 2 loop2 /\
  cocycles_until_death theta [PyInt 0; PyInt 1] /\
  (exists x' rows, get_coordinates theta_ext theta (1 / 2) [PyInt 0; PyInt 1] pu_linear false true = (x', Ok rows)) /\
  (exists x' row, circular_get_coordinates theta_ext theta (1 / 2) (PyInt 0) pu_linear false true = (x', Ok row)) /\
  in_ball theta_dm (3 / 2 / 2) 0 0 /\ ~ one_cocycle Rltb theta_dm 3 (t_table theta) v1.
Proof.
  assert (CU : forall c, cocycle_until theta 2 c) by (intros c; apply theta_cocycle_on; lra).
  assert (SS : sound_solver theta_ext) by (exists 0, 0; repeat split; try lra; discriminate).
  assert (CL : class_of theta (PyInt 0) 1 2 loop1) by (apply em_class1; reflexivity).
  split; [apply theta_consistent|]. split; [apply theta_metric|]. split; [apply theta_field|]. split; [apply theta_numpy|].
  split; [apply theta_cholesky|]. split; [exact SS|].
  split; [apply theta_lsqr|]. split; [apply theta_bump|]. split; [exact CL|]. split; [apply em_class1; reflexivity|]. split; [apply em_class1; reflexivity|]. split; [|split; [|split; [|split]]].
  - intros k birth death c [<-|[<-|[]]] H; apply em_class1 in H; cbv in H; injection H as <- <- <-; apply CU.
  - destruct (C39_documented_gram_refuted (fun _ _ => None) lsq (fun _ => 7%Z) 9 theta_lsqr (proj2 theta_numpy)) as (x' & rows & E & _). eauto.
  - destruct (C52_coordinates_depend_on_the_class theta_ext theta theta 5 5 (1 / 2) (PyInt 0) (PyInt 0) pu_linear false true 1 2 loop1 loop1 (lift_to_integer_cocycle 41 loop1) (lift_to_integer_cocycle 41 loop1) (fun _ => 0%Z)
      theta_consistent theta_consistent theta_metric ltac:(repeat split) theta_numpy theta_lsqr theta_bump CL CL ltac:(lra) ltac:(lra)
      (proj2 (integer_lift_ok _ _ _) eq_refl) (proj2 (integer_lift_ok _ _ _) eq_refl))
      as (row & _ & _ & E & _).
    + intros; lia.
    + intros _; split; apply theta_cocycle_on; lra.
    + destruct (circular_get_coordinates _ _ _ _ _ _ _) as [x' o]; cbn [snd] in E. subst o. eauto.
  - eexists; split; [eexists; split; reflexivity|lra].
  - intros H. specialize (H 0%nat 1%nat 2%nat 0%Z (-1)%Z 1%Z). assert (0 + -1 - 1 = 0)%Z; [|lia].
    apply H; try (eexists; split; reflexivity).
    split; [split; [reflexivity|split; [repeat constructor|repeat constructor; cbn; lia]]|].
    repeat constructor; eexists; eexists; (split; [reflexivity|split; [reflexivity|apply Rltb_true; lra]]).
Qed.

(** C52: adding to the first loop the coboundary of the indicator of landmark 2. *)
Definition loop1' : cocycle := mkCocycle 1 [([1; 2], 39); ([1; 3], 1); ([0; 3], 40)]%Z.
Definition theta' : tor :=
  mkTor (mkEM 41 [[]; [(1, 2); (1, 2)]] [0; 1; 2; 3; 4]%Z 5 theta_dm 0 theta_dm [[]; [loop1'; loop2]] None None)
    (combinatorial_number_system_table 5 2) None None None.
Example C52_nonvacuous :
  consistent theta' 5 5 /\ same_points theta theta' /\ class_of theta' (PyInt 0) 1 2 loop1' /\
  exists l l' k, integer_lift 41 loop1 l /\ integer_lift 41 loop1' l' /\
    (forall i j, (i < j < 5)%nat -> close Rltb theta_dm (3 / 2) i j -> (sparse_edge l' i j = sparse_edge l i j + (k i - k j))%Z) /\
    (sparse_edge l' 1 2 = -2 /\ sparse_edge l 1 2 = -1)%Z /\
    cocycle_on theta_dm (3 / 2) (fun v => v = 0%Z) (sparse_edge l) /\ cocycle_on theta_dm (3 / 2) (fun v => v = 0%Z) (sparse_edge l') /\
    connected theta_dm (3 / 2) 2 3.
Proof.
  split; [|split; [|split; [apply em_class1; reflexivity|]]].
  - pose proof theta_consistent as [A1 A2 A3 A4 A5 A6 A7 A8]. constructor; try assumption.
    exists [(1, 2); (1, 2)], [loop1'; loop2]. repeat split; try reflexivity. repeat constructor; cbn; try lia; intuition lia.
  - repeat split.
  - exists (lift_to_integer_cocycle 41 loop1), (lift_to_integer_cocycle 41 loop1'), (fun i => if (i =? 2)%nat then 1%Z else 0%Z).
    split; [apply integer_lift_ok; reflexivity|]. split; [apply integer_lift_ok; reflexivity|].
    split; [|split; [split; reflexivity|split; [apply theta_cocycle_on; lra|split; [apply theta_cocycle_on; lra|]]]].
    + intros i j [Hij _] Hcl. destruct (theta_close i j Hij Hcl) as [H1 H2].
      destruct i as [|[|]]; [| |lia]; (destruct j as [|[|[|[|[|]]]]]; try lia); reflexivity.
    + apply rst_trans with 0%nat; [apply rst_sym|]; apply rst_step; (split; [lia|]); eexists; eexists; (split; [reflexivity|split; [reflexivity|apply Rltb_true; lra]]).
Qed.

(** C36_stored_matrices: after a call for both loops, any call for one loop keeps the matrices of
    the two. *)
Example C36_stored_matrices_case :
  forall milp lsqr junk fuel ext' perc f sr check, least_squares lsqr -> (forall A b, length (lsqr A b) = s_cols A) ->
  let ext := mkExt argsort_Z milp lsqr chol2 junk (S fuel) in
  let y := fst (get_coordinates ext theta (1 / 2) [PyInt 0; PyInt 1] pu_linear false true) in
  t_original_gram theta = None /\ t_original_gram (fst (get_coordinates ext' y perc [PyInt 0] f sr check)) = Some [[4; -2]; [-2; 4]].
Proof.
  intros milp lsqr junk fuel ext' perc f sr check HL Hlen ext y. split; [reflexivity|].
  destruct (C39_documented_gram_refuted milp lsqr junk fuel HL Hlen) as (x' & rows & E & _ & G & _). fold ext in E.
  assert (Ey : y = x') by (unfold y; rewrite E; reflexivity).
  destruct (C36_stored_matrices ext' y perc [PyInt 0] f sr check) as (H & _); [right; cbn; lia|]. etransitivity; [exact H|]. rewrite Ey. exact G.
Qed.
