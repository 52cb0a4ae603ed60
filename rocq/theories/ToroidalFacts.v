(** ToroidalFacts.v -- what a call of get_coordinates computes. *)
From Coq Require Import Sorted Permutation.
From Verif Require Import Base BaseProofs CombinatorialModel SpecSimplex CombinatorialProofs
  DeltaModel SpecRips RipsProofs DeltaProofs DeltaFacts RealBase RealSum SpecRepair RepairModel RepairProofs
  EMModel SpecEM EMProofs CircleModel SpecCircle CircleProofs LLLModel SpecLLL LLLProofs
  CohomologyModel SpecCohomology CohomologyProofs PropDelta PropRepair PropCohomology PropEM PropCircle PropLLL
  ToroidalModel SpecToroidal ToroidalProofs.
Local Open Scope R_scope.

(** ** Dense vectors of congruent sparse cocycles *)
Lemma set_at_cong p err (v v' w : list Z) i (a a' : Z) : congruent_mod p v v' -> (p | a - a')%Z ->
  set_at err v i a = Ok w -> exists w', set_at err v' i a' = Ok w' /\ congruent_mod p w w'.
Proof.
  intros F Ha E. destruct (set_at_eq _ _ _ _ _ E) as (Hi & L & N & O).
  pose proof (f2_length F) as LF.
  destruct (set_at_ok err v' i a' ltac:(lia)) as (w' & E' & L' & N' & O' & _).
  exists w'; split; [exact E'|].
  assert (G : forall (l l' : list Z), length l = length l' ->
    (forall j x y, nth_error l j = Some x -> nth_error l' j = Some y -> (p | x - y)%Z) -> congruent_mod p l l').
  { induction l as [|x l IH]; intros [|y l'] Ll H; try discriminate Ll; constructor.
    - apply (H 0%nat); reflexivity.
    - apply IH; [injection Ll as Ll; exact Ll|]. intros j; apply (H (S j)). }
  apply G; [lia|]. intros j x y Hx Hy. destruct (Nat.eq_dec j i) as [->|Nj].
  - rewrite N in Hx; rewrite N' in Hy; injection Hx as <-; injection Hy as <-; exact Ha.
  - rewrite (O j Nj) in Hx; rewrite (O' j Nj) in Hy.
    clear - F Hx Hy. revert j Hx Hy; induction F as [|u u' l l' Hu F IH]; intros [|j] H1 H2; try discriminate.
    + cbn in H1, H2; congruence.
    + apply (IH j); assumption.
Qed.

Lemma cong_refl p l : congruent_mod p l l.
Proof. apply Forall2_refl'; intros x; exists 0%Z; lia. Qed.
Lemma cong_trans p a b c : congruent_mod p a b -> congruent_mod p b c -> congruent_mod p a c.
Proof. apply Forall2_trans'; intros x y z [u Hu] [v Hv]; exists (u + v)%Z; lia. Qed.

Lemma vector_cong argsort p table n c c' v :
  c_dim c' = c_dim c ->
  Forall2 (fun r r' => fst r' = fst r /\ (p | snd r - snd r')%Z) (c_rows c) (c_rows c') ->
  sparse_cocycle_to_vector argsort c table n = Ok v ->
  exists v', sparse_cocycle_to_vector argsort c' table n = Ok v' /\ congruent_mod p v v'.
Proof.
  intros Ed F; unfold sparse_cocycle_to_vector; rewrite Ed.
  destruct (number_of_simplices_of_dimension _ _ _) as [ns|]; cbn [bind]; [|discriminate].
  assert (G : forall u u', congruent_mod p u u' -> 
    for_in (c_rows c) (fun entry cocycle_as_vector =>
       os <- order_simplex argsort (fst entry) ;;
       vs <- map_res vertex_index (fst os) ;;
       simplex_index <- combinatorial_number_system_forward vs table ;;
       set_at IndexError cocycle_as_vector simplex_index (snd entry * snd os)%Z) u = Ok v ->
    exists v', for_in (c_rows c') (fun entry cocycle_as_vector =>
       os <- order_simplex argsort (fst entry) ;;
       vs <- map_res vertex_index (fst os) ;;
       simplex_index <- combinatorial_number_system_forward vs table ;;
       set_at IndexError cocycle_as_vector simplex_index (snd entry * snd os)%Z) u' = Ok v' /\ congruent_mod p v v').
  { induction F as [|r r' l l' [E1 E2] F IH]; intros u u' Hu; cbn [for_in].
    - intros H; injection H as <-; exists u'; split; [reflexivity|exact Hu].
    - rewrite E1. destruct (order_simplex _ _) as [os|]; cbn [bind]; [|discriminate].
      destruct (map_res _ _) as [vs|]; cbn [bind]; [|discriminate].
      destruct (combinatorial_number_system_forward _ _) as [k|]; cbn [bind]; [|discriminate].
      destruct (set_at IndexError u k _) as [u1|] eqn:Es; cbn [bind]; [|discriminate].
      destruct (set_at_cong p IndexError u u' u1 k (snd r * snd os)%Z (snd r' * snd os)%Z Hu) as (u1' & -> & Hu1); [|exact Es|].
      + destruct E2 as [q Hq]; exists (q * snd os)%Z; rewrite <- Z.mul_sub_distr_r, Hq; ring.
      + cbn [bind]; apply IH, Hu1. }
  apply G, cong_refl.
Qed.

Lemma lift_value_cong p v : (p | v - lift_value p v)%Z.
Proof. unfold lift_value; destruct (_ <? _)%Z; [exists 1%Z|exists 0%Z]; lia. Qed.
Lemma lift_vector argsort p table n c v :
  sparse_cocycle_to_vector argsort c table n = Ok v ->
  exists v', sparse_cocycle_to_vector argsort (lift_to_integer_cocycle p c) table n = Ok v' /\ congruent_mod p v v'.
Proof.
  apply vector_cong; [reflexivity|]. cbn [lift_to_integer_cocycle c_rows].
  induction (c_rows c) as [|r l IH]; constructor; [split; [reflexivity|apply lift_value_cong]|exact IH].
Qed.
Lemma lifts_vector argsort p table n m : forall c v,
  sparse_cocycle_to_vector argsort c table n = Ok v ->
  exists v', sparse_cocycle_to_vector argsort (Nat.iter m (lift_to_integer_cocycle p) c) table n = Ok v' /\ congruent_mod p v v'.
Proof.
  induction m as [|m IH]; intros c v E; [exists v; split; [exact E|apply cong_refl]|].
  rewrite iter_lift_S. destruct (lift_vector argsort p table n c v E) as (v1 & E1 & C1).
  destruct (IH _ v1 E1) as (v2 & E2 & C2). exists v2; split; [exact E2|eapply cong_trans; eassumption].
Qed.
(** The same notions for dense vectors. *)
Definition antisymmetric (table : list (list nat)) (n : nat) (c : list Z) (eta : nat -> nat -> Z) : Prop :=
  (forall i j, eta i j = - eta j i)%Z /\
  (forall i j, (i < j < n)%nat -> value_at table c [i; j] (eta i j)).
Definition vec_until (argsort : list Z -> list nat) (x : tor) (death : R) (c : cocycle) : Prop :=
  forall t vec, t <= death ->
  sparse_cocycle_to_vector argsort c (t_table x) (em_n_landmarks (t_em x)) = Ok vec ->
  one_cocycle_mod Rltb (em_dist_land_land (t_em x)) t (t_table x) (em_prime (t_em x)) vec.

Lemma lift_edge n p c : edge_cocycle n c -> edge_cocycle n (lift_to_integer_cocycle p c).
Proof.
  intros [H1 H2]; split; [exact H1|]. cbn [lift_to_integer_cocycle c_rows]. apply Forall_map; exact H2.
Qed.
Lemma lifts_edge n p m : forall c, edge_cocycle n c -> edge_cocycle n (Nat.iter m (lift_to_integer_cocycle p) c).
Proof. induction m; intros c H; [exact H|]. rewrite iter_lift_S; apply IHm, lift_edge, H. Qed.

Lemma edge_vector argsort n N c : (forall l, is_argsort Z.le 0%Z l (argsort l)) -> (n <= N)%nat -> edge_cocycle n c ->
  exists v, sparse_cocycle_to_vector argsort c (combinatorial_number_system_table N 2) n = Ok v /\ length v = comb n 2.
Proof.
  intros A HN [H1 H2].
  destruct (C07_sparse_to_dense argsort N 2 n 1 c HN ltac:(lia) A H1) as (v & E & B & _).
  - intros vs v Hr; rewrite Forall_forall in H2; apply (H2 _ Hr).
  - exists v; split; [exact E|]. apply is_binomial_comb in B; exact B.
Qed.

Lemma lift_mod_cocycle {D} (ltD : D -> D -> bool) dm t N p v v' : (length dm <= N)%nat -> congruent_mod p v v' -> length v = comb (length dm) 2 ->
  let T := combinatorial_number_system_table N 2 in
  one_cocycle_mod ltD dm t T p v -> one_cocycle_mod ltD dm t T p v'.
Proof.
  intros HN C L T H i j k a b e Hr Ha Hb He; subst T; set (T := combinatorial_number_system_table N 2) in *.
  pose proof (f2_length C) as L'.
  assert (G : forall s d x', (d <= 2)%nat -> simplex (length dm) d s -> S d = 2%nat -> value_at T v' s x' -> exists x, value_at T v s x /\ (p | x - x')%Z).
  { intros s d x' Hd Hs E2 (q & Eq & Nq).
    destruct (value_exists dm N 2 HN v d s Hd Hs ltac:(congruence)) as (x & q' & Eq' & Nx).
    fold T in Eq'; rewrite Eq in Eq'; apply Ok_inj in Eq'; subst q'. exists x; split; [exists q; auto|].
    clear - C Nq Nx. revert q Nq Nx; induction C as [|u u' l l' Hu F IH]; intros [|q] H1 H2; try discriminate.
    - cbn in H1, H2; congruence.
    - apply (IH q); assumption. }
  destruct (tri_faces _ _ _ _ (proj1 Hr)) as (F1 & F2 & F3).
  destruct (G [i; j] 1%nat a ltac:(lia)) as (a0 & Ha0 & Da); [assumption|reflexivity|assumption|].
  destruct (G [j; k] 1%nat b ltac:(lia)) as (b0 & Hb0 & Db); [assumption|reflexivity|assumption|].
  destruct (G [i; k] 1%nat e ltac:(lia)) as (e0 & He0 & De); [assumption|reflexivity|assumption|].
  specialize (H i j k a0 b0 e0 Hr Ha0 Hb0 He0).
  replace (a + b - e)%Z with ((a0 + b0 - e0) - (a0 - a) - (b0 - b) + (e0 - e))%Z by ring.
  apply Z.divide_add_r; [|exact De]. apply Z.divide_sub_r; [|exact Db]. apply Z.divide_sub_r; assumption.
Qed.

(** ** Soundness of the repair of all classes *)
Section RepairSound.
Variables (dm : list (list R)) (t : R) (N : nat) (junk : nat -> Z) (p : Z) (milp : milp_solver).
Hypothesis Hsq : square dm.
Notation n := (length dm).
Hypothesis HN : (n <= N)%nat.
Notation T := (combinatorial_number_system_table N 2).

Definition repaired (c c' : list Z) : Prop :=
  (one_cocycle Rltb dm t T c /\ c' = c) \/
  (~ one_cocycle Rltb dm t T c /\ exists M idx, make_delta1_compact Rltb junk dm t T = Ok M /\ repair_with p milp M idx c = Ok c').

Lemma repair_loop vecs : forall idxs d acc st,
  Forall (fun c => length c = comb n 2) vecs -> length idxs = length vecs ->
  (forall M, d = Some M -> make_delta1_compact Rltb junk dm t T = Ok M) ->
  for_in (combine idxs vecs) (repair_step Rltb junk p milp dm t T) (d, acc) = Ok st ->
  exists out, snd st = acc ++ out /\ Forall2 repaired vecs out.
Proof.
  induction vecs as [|c vecs IH]; intros idxs d acc st F L Hd E.
  - destruct idxs; [|discriminate L]. cbn in E; injection E as <-. exists []; split; [cbn; rewrite app_nil_r; reflexivity|constructor].
  - destruct idxs as [|k idxs]; [discriminate L|]. injection L as L. inversion F as [|? ? Lc F']; subst.
    cbn [combine for_in] in E.
    destruct (repair_step _ _ _ _ _ _ _ (k, c) (d, acc)) as [st1|] eqn:Es; cbn [bind] in E; [|discriminate].
    assert (G : exists d1 c1, st1 = (d1, acc ++ [c1]) /\ repaired c c1 /\ (forall M, d1 = Some M -> make_delta1_compact Rltb junk dm t T = Ok M)).
    { unfold repair_step in Es; cbn [fst snd] in Es.
      assert (B : is_binomial n 2 (length c)) by (rewrite Lc; apply comb_is_binomial).
      destruct (C15_is_one_cocycle Rltb dm t N 2 c Hsq HN ltac:(lia) B) as (ans & ff & E1 & Ha & _).
      rewrite E1 in Es; cbn [bind fst snd] in Es. destruct ans.
      - injection Es as <-. exists d, c; split; [reflexivity|]. split; [left; split; [apply Ha; reflexivity|reflexivity]|exact Hd].
      - destruct (match d with None => Ok false | Some A => csr_bool A end) as [keep|] eqn:Ek; cbn [bind] in Es; [|discriminate].
        destruct (match d, keep with Some A, true => Ok A | _, _ => make_delta1_compact Rltb junk dm t T end) as [M|] eqn:EM; cbn [bind] in Es; [|discriminate].
        destruct (repair_with p milp M k c) as [c1|] eqn:Er; cbn [bind] in Es; [|discriminate]. injection Es as <-.
        assert (HM : make_delta1_compact Rltb junk dm t T = Ok M).
        { destruct d as [A|]; [destruct keep; [injection EM as <-; apply Hd; reflexivity|exact EM]|exact EM]. }
        exists (Some M), c1; split; [reflexivity|]. split; [right; split; [intros H; apply Ha in H; discriminate|exists M, k; auto]|].
        intros M' E'; injection E' as <-; exact HM. }
    destruct G as (d1 & c1 & -> & Rc & Hd1).
    destruct (IH idxs d1 (acc ++ [c1]) st F' L Hd1 E) as (out & Eo & Fo).
    exists (c1 :: out); split; [rewrite Eo, <- app_assoc; reflexivity|constructor; assumption].
Qed.

Lemma repair_all_inv vecs out : Forall (fun c => length c = comb n 2) vecs ->
  repair_all Rltb junk p milp dm t T vecs = Ok out -> Forall2 repaired vecs out.
Proof.
  intros F; unfold repair_all. destruct (for_in _ _ _) as [st|] eqn:E; cbn [bind]; [|discriminate].
  intros H; injection H as <-.
  destruct (repair_loop vecs (map Z.of_nat (range 0 (length vecs))) None [] st F) as (out & Eo & Fo).
  - unfold range; rewrite map_length, seq_length; lia.
  - discriminate.
  - exact E.
  - rewrite Eo; exact Fo.
Qed.

Lemma repaired_length c c' : repaired c c' -> length c' = length c.
Proof.
  intros [[_ ->]|(_ & M & idx & _ & E)]; [reflexivity|]. unfold repair_with in E.
  destruct (matvec _ _); cbn [bind] in E; [|discriminate]. destruct (milp _ _) as [s|]; [|discriminate].
  destruct (Nat.eqb_spec (length s) (length c)); [|discriminate]. injection E as <-.
  rewrite map_length, combine_length; lia.
Qed.

Lemma repaired_sound c c' eps tol : (Z.of_nat n <= 2345)%Z -> (0 < p)%Z -> (0 <= eps)%R -> (0 <= tol)%R -> (3 * eps + tol < 1)%R ->
  sound_milp eps tol milp -> length c = comb n 2 -> one_cocycle_mod Rltb dm t T p c -> repaired c c' ->
  one_cocycle Rltb dm t T c' /\ congruent_mod p c c'.
Proof.
  intros Hn Hp H1 H2 H3 Hs Lc Hm [[Hc ->]|(_ & M & idx & HM & E)]; [split; [exact Hc|apply cong_refl]|].
  assert (B : is_binomial n 2 (length c)) by (rewrite Lc; apply comb_is_binomial).
  destruct (C18_repair Rltb dm t N 2 p c eps tol milp junk M idx Hsq HN ltac:(lia) Hn Hp B H1 H2 H3 Hs HM Hm) as (d & _ & Q).
  destruct (milp M (map (fun v => (v / p)%Z) d)) as [x|]; [destruct Q as (c1 & E1 & G1 & G2)|rename Q into E1].
  - rewrite E in E1; apply Ok_inj in E1; subst; auto.
  - rewrite E in E1; discriminate.
Qed.
End RepairSound.

(** ** Inversion of a successful call *)
Lemma coordinates_inv ext e T cs r t f check rows g :
  coordinates ext e T cs r t f check = Ok (rows, g) ->
  exists M0 vecs etas W hf A,
    make_delta0 Rltb (x_junk ext) (em_dist_land_land e) t T = Ok M0 /\
    map_res (fun c => sparse_cocycle_to_vector (x_argsort ext) c T (em_n_landmarks e)) cs = Ok vecs /\
    (if check then repair_all Rltb (x_junk ext) (em_prime e) (x_milp ext) (em_dist_land_land e) t T vecs = Ok etas else etas = vecs) /\
    make_inner_product Rltb (x_junk ext) (em_dist_land_land e) t T = Ok W /\
    map_res (fun c => integrate_harmonic_representative (x_lsqr ext) c M0 (snd W)) etas = Ok hf /\
    map_res (fun hi => sparse_integrate (fst hi) (snd hi) (fst (get_covering_partition e r f))
       (snd (get_covering_partition e r f)) (em_dist_land_land e) t T) hf = Ok A /\
    ((length cs <= 1)%nat -> rows = A /\ g = None) /\
    ((1 < length cs)%nat -> exists gm L B' ch,
       gram_matrix (map fst hf) (fst W) = Ok gm /\ x_cholesky ext gm = Ok L /\ lll (x_fuel ext) L = Ok (B', ch) /\
       linear_combination A (Coeffs2 ch) = Ok (Maps2 rows) /\ g = Some (gm, times_transpose B', ch)).
Proof.
  unfold coordinates; intros H. destruct (get_covering_partition e r f) as [varphi ball]; cbn [fst snd].
  destruct (make_delta0 _ _ _ _ _) as [M0|]; cbn [bind] in H; [|discriminate].
  destruct (map_res _ cs) as [vecs|]; cbn [bind] in H; [|discriminate].
  destruct (if check then _ else _) as [etas|] eqn:Ech in H; cbn [bind] in H; [|discriminate].
  destruct (make_inner_product _ _ _ _ _) as [W|]; cbn [bind] in H; [|discriminate].
  destruct (map_res _ etas) as [hf|] eqn:Ehf in H; cbn [bind] in H; [|discriminate].
  destruct (map_res _ hf) as [A|] eqn:EA in H; cbn [bind] in H; [|discriminate].
  exists M0, vecs, etas, W, hf, A. split; [reflexivity|]. split; [reflexivity|].
  split; [destruct check; [exact Ech|injection Ech as <-; reflexivity]|].
  split; [reflexivity|]. split; [exact Ehf|]. split; [exact EA|].
  destruct (Nat.ltb_spec 1 (length cs)) as [Hl|Hl].
  - split; [lia|intros _]. destruct (gram_matrix _ _) as [gm|]; cbn [bind] in H; [|discriminate].
    unfold reduce_circular_coordinates in H. destruct (x_cholesky ext gm) as [L|] eqn:EL; cbn [bind] in H; [|discriminate].
    destruct (lll (x_fuel ext) L) as [[B' ch]|] eqn:El; cbn [bind] in H; [|discriminate]. cbn [snd fst] in H.
    destruct (linear_combination A (Coeffs2 ch)) as [mp|] eqn:Elc; cbn [bind] in H; [|discriminate].
    destruct mp as [rs|rs]; cbn [bind fst snd] in H.
    + injection H as <- <-. exists gm, L, B', ch. repeat split; assumption.
    + exfalso; revert Elc; clear; unfold linear_combination.
      destruct (negb _); cbn [bind]; [|discriminate]. destruct (_ =? _)%nat; cbn [bind]; discriminate.
  - split; [intros _; injection H as <- <-; split; reflexivity|lia].
Qed.

Lemma map_eq_cons_nil {A B} (f : A -> B) l : map f l = [] -> l = [].
Proof. destruct l; [reflexivity|discriminate]. Qed.

Lemma call_anatomy ext x perc idxs f sr check x' rows dgm cs :
  nth_error (em_dgms (t_em x)) 1 = Some dgm -> nth_error (em_cocycles (t_em x)) 1 = Some cs -> length cs = length dgm ->
  get_coordinates ext x perc idxs f sr check = (x', Ok rows) ->
  exists reps birth death lifted t g,
    map_res (fun k => get_representative_cocycle (t_em x) k 1) idxs = Ok reps /\ idxs <> [] /\
    In birth (map (fun r => fst (fst r)) reps) /\ (forall y, In y (map (fun r => fst (fst r)) reps) -> y <= birth) /\
    In death (map (fun r => snd (fst r)) reps) /\ (forall y, In y (map (fun r => snd (fst r)) reps) -> death <= y) /\
    birth < death /\ (if sr then 2 * birth else birth) <= death /\
    t = (1 - perc) * (if sr then 2 * birth else birth) + perc * death /\
    em_rips_threshold (t_em x') = Some t /\ em_r_cover (t_em x') = Some (t / 2) /\
    aged (t_em x) (t_em x') /\ t_table x' = t_table x /\
    Forall2 (fun rep lc => exists m, lc = Nat.iter (S m) (lift_to_integer_cocycle (em_prime (t_em x))) (snd rep)) reps lifted /\
    coordinates ext (t_em x) (t_table x) lifted (t / 2) t f check = Ok (rows, g) /\
    (g = None -> t_original_gram x' = t_original_gram x /\ t_gram x' = t_gram x /\ t_change_basis x' = t_change_basis x) /\
    (forall g0 g1 ch, g = Some (g0, g1, ch) -> t_original_gram x' = Some g0 /\ t_gram x' = Some g1 /\ t_change_basis x' = Some ch).
Proof.
  intros E1 E2 L E.
  destruct (get_steps ext x perc idxs f sr check dgm cs E1 E2 L) as [SA ST]. rewrite E in SA, ST; cbn [fst] in SA, ST.
  unfold get_coordinates in E.
  destruct (map_res _ idxs) as [reps|] eqn:Er; [|injection E as _ E; discriminate].
  pose proof Er as Er0. apply (reps_char _ dgm cs idxs reps E1 E2 L) in Er; destruct Er as [F Ereps].
  destruct reps as [|rep0 reps']; [cbn in E; injection E as _ E; discriminate|].
  destruct (np_max_ok (map (fun r => fst (fst r)) (rep0 :: reps')) ltac:(discriminate)) as (birth & Eb & Hb1 & Hb2).
  destruct (np_min_ok (map (fun r => snd (fst r)) (rep0 :: reps')) ltac:(discriminate)) as (death & Ed & Hd1 & Hd2).
  set (reps := rep0 :: reps') in *. rewrite Eb, Ed in E.
  destruct (Rleb death birth) eqn:Elt; [injection E as _ E; discriminate|].
  assert (Hlt : birth < death) by (unfold Rleb in Elt; destruct (Rle_dec death birth); [discriminate|lra]).
  destruct (lift_aged _ idxs dgm cs E1 E2 F) as (store & cs' & EL & A1 & N1 & L1 & H1). rewrite EL in E.
  pose proof (radius_effect (set_cocycles (t_em x) store) perc birth death sr) as [A2 K2].
  destruct (get_cover_radius (set_cocycles (t_em x) store) perc birth death sr) as [e2 radius] eqn:Eg. cbn [fst] in A2, K2.
  unfold get_cover_radius in Eg. set (start := if sr then 2 * birth else birth) in *.
  destruct (Rltb death start) eqn:Els; injection Eg as Ee2 Erad; subst radius; [cbn [bind] in E; injection E as _ E; discriminate|].
  apply Rltb_false in Els. set (t := (1 - perc) * start + perc * death) in *.
  cbn [bind fst snd] in E.
  assert (D2 : nth_error (em_dgms e2) 1 = Some dgm) by (destruct A2 as ((_ & -> & _) & _); exact E1).
  assert (M2 : nth_error (em_cocycles e2) 1 = Some cs') by (rewrite K2; exact N1).
  assert (Fp1 : Forall (fun k => class_pos (length cs') k <> None) idxs) by (rewrite L1; exact F).
  rewrite (proj2 (reps_char e2 dgm cs' idxs _ D2 M2 ltac:(congruence)) (conj Fp1 eq_refl)) in E. cbn [bind] in E.
  set (lifted := map snd _) in E.
  assert (SD : same_data (t_em x) e2) by (eapply same_data_trans; [exact (proj1 A1)|exact (proj1 A2)]).
  rewrite (coordinates_ext ext (t_em x) e2 _ _ _ _ _ _ SD) in E.
  destruct (coordinates ext (t_em x) (t_table x) lifted (t / 2) t f check) as [[rows0 g]|] eqn:EC; [|injection E as _ E; discriminate].
  assert (T2 : em_rips_threshold e2 = Some t /\ em_r_cover e2 = Some (t / 2)) by (subst e2; split; reflexivity).
  assert (G : t_em x' = e2 /\ rows0 = rows /\
    (g = None -> t_original_gram x' = t_original_gram x /\ t_gram x' = t_gram x /\ t_change_basis x' = t_change_basis x) /\
    (forall g0 g1 ch, g = Some (g0, g1, ch) -> t_original_gram x' = Some g0 /\ t_gram x' = Some g1 /\ t_change_basis x' = Some ch)).
  { destruct g as [[[g0 g1] ch]|]; injection E as <- <-; cbn; repeat split; try discriminate; intros; congruence. }
  destruct G as (Gx & -> & G1 & G2). clear E.
  exists reps, birth, death, lifted, t, g. rewrite Gx in *.
  repeat match goal with |- _ /\ _ => split end; try assumption; try reflexivity; try (apply T2); try (apply G1).
  - intros ->; subst reps; discriminate Er0.
  - rewrite Ereps; unfold lifted. rewrite map_map; cbn [snd]. rewrite L1.
    assert (Hin : forall k, In k idxs -> exists m, nth (posn (length cs) k) cs' no_c =
       Nat.iter (S m) (lift_to_integer_cocycle (em_prime (t_em x))) (nth (posn (length cs) k) cs no_c)).
    { intros k Hk. rewrite Forall_forall in F; specialize (F k Hk); unfold posn.
      destruct (class_pos (length cs) k) as [i|] eqn:Ep; [|congruence].
      assert (Hi : (i < length cs)%nat) by (destruct k; cbn in Ep; [exact (pos_lt _ _ _ Ep)|discriminate]).
      destruct (nth_error cs i) as [c|] eqn:Ec; [|apply nth_error_None in Ec; lia].
      rewrite (nth_error_nth _ _ _ (H1 i c Ec)), (nth_error_nth _ _ _ Ec).
      pose proof (times_pos _ idxs k i Hk Ep). destruct (times (length cs) idxs i) as [|m]; [lia|]. exists m; reflexivity. }
    clear - Hin. induction idxs as [|k idxs IH]; cbn [map]; constructor.
    + cbn [snd]. apply Hin; left; reflexivity.
    + apply IH; intros; apply Hin; right; assumption.
Qed.

(** ** Rows of one class *)
Section Rows.
Variables (x : tor) (n N : nat).
Hypothesis C : consistent x n N.
Variables (f : R -> R -> R) (r t : R).
Hypothesis Hf : bump f r.
Notation ld := (em_dist_land_data (t_em x)).
Notation ll := (em_dist_land_land (t_em x)).
Notation varphi := (fst (get_covering_partition (t_em x) r f)).
Notation ball := (snd (get_covering_partition (t_em x) r f)).
Notation w := (weight_at x r f).
Notation T := (t_table x).

Lemma in_ball_bounds i b : in_ball ld r i b -> (i < n /\ b < N)%nat.
Proof. intros (d & Hd & _); apply (entry_bounds _ _ _ _ _ _ (co_ld _ _ _ C) Hd). Qed.

Lemma in_ball_dec i b : in_ball ld r i b \/ ~ in_ball ld r i b.
Proof.
  destruct (nth_error ld i) as [row|] eqn:E1; [|right; intros (d & (row & E & _) & _); congruence].
  destruct (nth_error row b) as [d|] eqn:E2; [|right; intros (d & (row' & E & E') & _); congruence].
  destruct (Rlt_dec d r) as [Y|Y]; [left; exists d; split; [exists row; auto|exact Y]|].
  right; intros (d' & (row' & E & E') & H). rewrite E1 in E; injection E as <-; rewrite E2 in E'; injection E' as <-; contradiction.
Qed.
Lemma covered_dec b : (exists i, in_ball ld r i b) \/ (forall i, ~ in_ball ld r i b).
Proof.
  assert (G : forall m, (exists i, in_ball ld r i b) \/ (forall i, (i < m)%nat -> ~ in_ball ld r i b)).
  { induction m as [|m [IH|IH]]; [right; lia|left; exact IH|]. destruct (in_ball_dec m b) as [Y|Y]; [left; exists m; exact Y|].
    right; intros i Hi; destruct (Nat.eq_dec i m) as [->|]; [exact Y|apply IH; lia]. }
  destruct (G n) as [Y|Y]; [left; exact Y|right; intros i Hi]. apply (Y i); [apply (in_ball_bounds _ _ Hi)|exact Hi].
Qed.

Lemma part_ok : matrix n N varphi /\ length ball = N /\
  forall b, (b < N)%nat ->
   ((exists i, in_ball ld r i b) ->
      (forall s, (s < n)%nat -> entry varphi s b (Some (w s b))) /\ sumn n (fun s => w s b) = 1 /\
      (forall s, (s < n)%nat -> 0 <= w s b /\ (0 < w s b <-> in_ball ld r s b)) /\
      exists k, nth_error ball b = Some k /\ in_ball ld r k b /\ forall i, (i < k)%nat -> ~ in_ball ld r i b) /\
   ((forall i, ~ in_ball ld r i b) -> (forall i, (i < n)%nat -> entry varphi i b None) /\ nth_error ball b = Some 0%nat).
Proof.
  pose proof (C28_partition_of_unity (t_em x) r f n N (co_ld _ _ _ C) (proj1 (co_pos _ _ _ C)) (co_nonneg _ _ _ C) Hf) as P.
  assert (EW : forall s b, (s < n)%nat -> (b < N)%nat -> w s b = match at2 None varphi s b with Some y => y | None => 0 end).
  { intros s b Hs Hb. unfold weight_at. rewrite (entry_at2 varphi s b _ None (partition_weight (t_em x) r f n N (co_ld _ _ _ C) (proj1 (co_pos _ _ _ C)) s b Hs Hb)). reflexivity. }
  destruct (get_covering_partition (t_em x) r f) as [vp bl]; cbn [fst snd] in *.
  destruct P as (P1 & P2 & P3). split; [exact P1|]. split; [exact P2|]. intros b Hb; destruct (P3 b Hb) as [Q1 Q2].
  split; [|exact Q2]. intros Hc; destruct (Q1 Hc) as [(ws & Lw & Tw & Hw & _) Hk].
  assert (G : forall s, (s < n)%nat -> entry vp s b (Some (nth s ws 0)) /\ at2 None vp s b = Some (nth s ws 0) /\ 0 <= nth s ws 0 /\ (0 < nth s ws 0 <-> in_ball ld r s b)).
  { intros s Hs. destruct (Hw s (nth s ws 0)) as (A1 & A2 & A3); [apply nth_error_nth'; lia|].
    split; [exact A1|]. split; [apply entry_at2, A1|]. split; assumption. }
  split; [|split; [|split; [|exact Hk]]].
  - intros s Hs; destruct (G s Hs) as (A1 & A2 & _); rewrite (EW s b Hs Hb), A2; exact A1.
  - rewrite <- Tw; unfold total; rewrite fold_sumn, Lw. apply sumn_ext; intros s Hs; rewrite (EW s b Hs Hb); destruct (G s Hs) as (_ & -> & _); reflexivity.
  - intros s Hs; rewrite (EW s b Hs Hb); destruct (G s Hs) as (_ & -> & A3); exact A3.
Qed.

Lemma sq_ll : square ll /\ length ll = n.
Proof.
  destruct (co_ll _ _ _ C) as [L1 L2]; split; [|exact L1]. unfold square; rewrite L1; exact L2.
Qed.

(** The row computed from any values on edges and vertices. *)
Lemma row_ok h g : length h = comb n 2 -> length g = n ->
  exists row, sparse_integrate h g varphi ball ll t T = Ok row /\ length row = N /\
  forall b, (b < N)%nat ->
    (forall k, nth_error ball b = Some k -> (exists i, in_ball ld r i b) ->
       nth_error row b = Some (Some (np_mod (2 * PI * (nth k g 0 + sumn n (fun s => full ll t h k s * w s b))) two_pi))) /\
    ((forall i, ~ in_ball ld r i b) -> nth_error row b = Some None).
Proof.
  intros Lh Lg. destruct sq_ll as [Sq L]. destruct (co_table _ _ _ C) as (n' & Hn' & ET).
  destruct part_ok as (P1 & P2 & P3).
  destruct (sparse_integrate_ok ll t n' 2 Sq ltac:(lia) ltac:(lia) h g varphi ball N) as (row & E & Lr & Hr).
  - congruence.
  - congruence.
  - rewrite L; exact P1.
  - exact P2.
  - apply Forall_forall; intros k Hk. apply In_nth_error in Hk; destruct Hk as (b & Hk).
    rewrite L. pose proof (some_lt _ _ _ Hk) as Hb; rewrite P2 in Hb. destruct (P3 b Hb) as [Q1 Q2].
    destruct (covered_dec b) as [Y|Y].
    + destruct (Q1 Y) as (_ & _ & _ & k' & Ek & Bk & _). rewrite Hk in Ek; injection Ek as <-. apply (in_ball_bounds _ _ Bk).
    + destruct (Q2 Y) as [_ Ek]. rewrite Hk in Ek; injection Ek as ->.
      pose proof (co_pos _ _ _ C); lia.
  - exists row; rewrite ET; split; [exact E|]. split; [exact Lr|]. intros b Hb. destruct (P3 b Hb) as [Q1 Q2]. split.
    + intros k Ek Hc. destruct (Q1 Hc) as (Q3 & _ & Q5 & k' & Ek' & _ & Q6). rewrite Ek in Ek'; injection Ek' as <-.
      destruct (Hr b k Ek) as [R1 _]. rewrite (R1 (fun s => w s b)) by (rewrite L; exact Q3).
      rewrite L. do 5 f_equal. apply upper_full. intros s Hs.
      destruct (in_ball_bounds k b) as [Hk _].
      { destruct (Q1 Hc) as (_ & _ & _ & k2 & Ek2 & B & _); rewrite Ek in Ek2; injection Ek2 as <-; exact B. }
      destruct (Q5 s ltac:(lia)) as [W0 W1]. destruct (Rle_lt_or_eq_dec _ _ W0) as [W2|W2]; [|symmetry; exact W2].
      elim (Q6 s Hs); apply W1, W2.
    + intros Hu. destruct (Q2 Hu) as [Q3 Q4]. destruct (Hr b 0%nat Q4) as [_ R2]. apply R2.
      exists 0%nat; apply Q3; pose proof (co_pos _ _ _ C); lia.
Qed.

(** A real antisymmetric matrix extending the values [h] on the edges. *)
Lemma full_value h theta : length h = comb n 2 ->
  (forall i j, theta i j = - theta j i) ->
  (forall i j, (i < j < n)%nat -> (close Rltb ll t i j -> value_at T h [i; j] (theta i j)) /\ (~ close Rltb ll t i j -> theta i j = 0)) ->
  forall i j, (i < n)%nat -> (j < n)%nat -> full ll t h i j = theta i j.
Proof.
  intros Lh An Hv. destruct sq_ll as [Sq L]. destruct (co_table _ _ _ C) as (n' & Hn' & ET).
  assert (G : forall i j, (i < j < n)%nat -> upper ll t h i j = theta i j).
  { intros i j Hij; unfold upper; rewrite (proj2 (Nat.ltb_lt i j)) by lia; cbn [andb].
    destruct (Hv i j Hij) as [V1 V2]. destruct (closeb Rltb ll t i j) eqn:E.
    - apply closeb_close in E; specialize (V1 E). rewrite ET in V1.
      rewrite (value_at_rank ll n' 2 ltac:(lia) h 1) in V1; [apply (nth_error_nth _ _ 0) in V1; exact V1|lia|apply simplex2; lia].
    - symmetry; apply V2. rewrite <- closeb_close, E; discriminate. }
  intros i j Hi Hj; unfold full. destruct (Nat.ltb_spec i j) as [H|H]; [apply G; lia|].
  destruct (Nat.eq_dec i j) as [->|Ne].
  - rewrite upper_diag by lia. pose proof (An j j); lra.
  - rewrite G by lia. rewrite (An i j); reflexivity.
Qed.

Lemma balls_close i j b : metric x -> t = 2 * r -> (i < j)%nat -> in_ball ld r i b -> in_ball ld r j b -> close Rltb ll t i j.
Proof.
  intros [_ M] Ht Hij Hi Hj. destruct (in_ball_bounds i b Hi) as [Bi Bb]; destruct (in_ball_bounds j b Hj) as [Bj _].
  destruct Hi as (d1 & E1 & L1); destruct Hj as (d2 & E2 & L2).
  destruct (matrix_entry n n ll i j (co_ll _ _ _ C) Bi Bj) as (d & Ed). pose proof (M i j b d d1 d2 Ed E1 E2) as Tr.
  destruct Ed as (row & R1 & R2). exists row, d; split; [exact R1|]. split; [exact R2|]. apply Rltb_true; lra.
Qed.

Lemma eta_cocycle c eta : length c = comb n 2 -> antisymmetric T n c eta -> one_cocycle Rltb ll t T c ->
  forall i j k, (i < n)%nat -> (j < n)%nat -> (k < n)%nat ->
  (forall a b, In a [i; j; k] -> In b [i; j; k] -> (a < b)%nat -> close Rltb ll t a b) ->
  (eta i j + eta j k = eta i k)%Z.
Proof.
  intros Lc [An Hv] Hc. destruct sq_ll as [Sq L].
  assert (G : forall a b e, (a < b)%nat -> (b < e)%nat -> (e < n)%nat -> close Rltb ll t a b -> close Rltb ll t b e -> close Rltb ll t a e ->
    (eta a b + eta b e - eta a e = 0)%Z).
  { intros a b e H1 H2 H3 C1 C2 C3. apply (Hc a b e); [|apply Hv; lia..].
    split; [rewrite L; apply simplex3; lia|]. repeat constructor; assumption. }
  assert (Z0 : forall a, eta a a = 0%Z) by (intros a; pose proof (An a a); lia).
  intros i j k Hi Hj Hk Cl.
  assert (I1 : In i [i; j; k]) by (left; reflexivity). assert (I2 : In j [i; j; k]) by (right; left; reflexivity).
  assert (I3 : In k [i; j; k]) by (right; right; left; reflexivity).
  destruct (lt_eq_lt_dec i j) as [[A|A]|A]; [|subst j; rewrite Z0; lia|];
  (destruct (lt_eq_lt_dec j k) as [[B|B]|B]; [|subst k; rewrite Z0; lia|]);
  (destruct (lt_eq_lt_dec i k) as [[D|D]|D]; [|subst k; rewrite Z0; pose proof (An i j); lia|]); try lia;
  pose proof (An i j); pose proof (An j k); pose proof (An i k).
  - pose proof (G i j k A B Hk ltac:(auto) ltac:(auto) ltac:(auto)); lia.
  - pose proof (G i k j D B Hj ltac:(auto) ltac:(auto) ltac:(auto)); lia.
  - pose proof (G k i j D A Hj ltac:(auto) ltac:(auto) ltac:(auto)); lia.
  - pose proof (G j i k A D Hk ltac:(auto) ltac:(auto) ltac:(auto)); lia.
  - pose proof (G j k i B D Hi ltac:(auto) ltac:(auto) ltac:(auto)); lia.
  - pose proof (G k j i B A Hi ltac:(auto) ltac:(auto) ltac:(auto)); lia.
Qed.

Definition eta_of (c : list Z) (i j : nat) : Z :=
  if (i <? j)%nat then nth (rank [i; j]) c 0%Z else if (j <? i)%nat then (- nth (rank [j; i]) c 0)%Z else 0%Z.
Lemma eta_of_anti c : length c = comb n 2 -> antisymmetric T n c (eta_of c).
Proof.
  intros Lc. destruct sq_ll as [Sq L]. destruct (co_table _ _ _ C) as (n' & Hn' & ET). split.
  - intros i j; unfold eta_of. destruct (Nat.ltb_spec i j); destruct (Nat.ltb_spec j i); lia.
  - intros i j Hij; unfold eta_of. rewrite (proj2 (Nat.ltb_lt i j)) by lia. rewrite ET.
    assert (Hs : simplex n 1 [i; j]) by (apply simplex2; lia). pose proof (rank_lt_d n 1 _ Hs) as Hr.
    rewrite <- L in Hs. rewrite (value_at_rank ll n' 2 ltac:(lia) c 1) by (exact Hs || lia).
    apply nth_error_nth'; lia.
Qed.

(** The harmonic values in terms of the cocycle and the integral. *)
Lemma harmonic_value ext junk M0 W c h g eta : (forall A b, length (x_lsqr ext A b) = s_cols A) ->
  make_delta0 Rltb junk ll t T = Ok M0 -> make_inner_product Rltb junk ll t T = Ok W -> length c = comb n 2 ->
  integrate_harmonic_representative (x_lsqr ext) c M0 (snd W) = Ok (h, g) -> antisymmetric T n c eta ->
  length g = n /\ length h = comb n 2 /\
  forall i j, (i < n)%nat -> (j < n)%nat -> (forall a b, In a [i; j] -> In b [i; j] -> (a < b)%nat -> close Rltb ll t a b) ->
    full ll t h i j = IZR (eta i j) - (nth i g 0 - nth j g 0).
Proof.
  intros Hl E0 EW Lc EI [An Hv]. destruct sq_ll as [Sq L]. destruct (co_table _ _ _ C) as (n' & Hn' & ET).
  rewrite ET in E0, EW. pose proof (co_pos _ _ _ C) as Hp.
  destruct (integrate_ok ll t n' 2 Sq ltac:(lia) ltac:(lia) (x_lsqr ext) c junk M0 W) as (A & b & g' & h' & E & _ & _ & _ & Lg & Lh & Hh);
    [rewrite L; lia|exact Hl|assumption|assumption|rewrite L; assumption|].
  rewrite EI in E; injection E as <- <-. rewrite L in Lg, Lh.
  split; [exact Lg|]. split; [exact Lh|].
  assert (G : forall i j, (i < j < n)%nat -> close Rltb ll t i j -> upper ll t h i j = IZR (eta i j) - (nth i g 0 - nth j g 0)).
  { intros i j Hij Cl. unfold upper. rewrite (proj2 (Nat.ltb_lt i j)) by lia. rewrite <- L in Hij.
    assert (Eb : closeb Rltb ll t i j = true) by (apply closeb_close, Cl). rewrite Eb; cbn [andb].
    rewrite (Hh i j Hij), Eb. f_equal; f_equal. rewrite L in Hij. specialize (Hv i j Hij). rewrite ET in Hv.
    rewrite (value_at_rank ll n' 2 ltac:(lia) c 1) in Hv by (lia || (apply simplex2; lia)). apply (nth_error_nth _ _ 0%Z) in Hv; exact Hv. }
  intros i j Hi Hj Cl. unfold full. destruct (Nat.ltb_spec i j) as [H|H].
  - apply G; [lia|]. apply Cl; cbn; auto.
  - destruct (Nat.eq_dec i j) as [->|Ne].
    + rewrite upper_diag by lia. pose proof (An j j). replace (eta j j) with 0%Z by lia. lra.
    + rewrite G; [rewrite (An i j), opp_IZR; lra|lia|]. apply Cl; cbn; auto; lia.
Qed.

(** The row of a class whose integer cochain is a cocycle. *)
Lemma class_row_joined ext junk M0 W c h g eta row : (forall A b, length (x_lsqr ext A b) = s_cols A) ->
  make_delta0 Rltb junk ll t T = Ok M0 -> make_inner_product Rltb junk ll t T = Ok W -> length c = comb n 2 ->
  integrate_harmonic_representative (x_lsqr ext) c M0 (snd W) = Ok (h, g) -> antisymmetric T n c eta ->
  sparse_integrate h g varphi ball ll t T = Ok row ->
  (forall i j b, (i < j)%nat -> in_ball ld r i b -> in_ball ld r j b -> close Rltb ll t i j) -> one_cocycle Rltb ll t T c ->
  classified_by x N r f row (fun i => nth i g 0) eta /\
  (forall b j k, in_ball ld r j b -> in_ball ld r k b ->
     lift x r f (fun i => nth i g 0) eta j b - lift x r f (fun i => nth i g 0) eta k b = IZR (eta j k)) /\
  (forall b j, in_ball ld r j b ->
     lift x r f (fun i => nth i g 0) eta j b = nth j g 0 + sumn n (fun s => full ll t h j s * w s b)).
Proof.
  intros Hl E0 EW Lc EI An ES Joined Hc.
  destruct (harmonic_value ext junk M0 W c h g eta Hl E0 EW Lc EI An) as (Lg & Lh & Hh).
  destruct (row_ok h g Lh Lg) as (row' & ES' & Lr & Hr). rewrite ES in ES'; injection ES' as <-.
  destruct part_ok as (_ & _ & P3).
  assert (CL : forall b l, Forall (fun s => in_ball ld r s b) l -> forall a a', In a l -> In a' l -> (a < a')%nat -> close Rltb ll t a a').
  { intros b l F a a' Ha Ha' Hlt. rewrite Forall_forall in F. apply (Joined a a' b Hlt); apply F; assumption. }
  assert (D : forall b j k, in_ball ld r j b -> in_ball ld r k b ->
     lift x r f (fun i => nth i g 0) eta j b - lift x r f (fun i => nth i g 0) eta k b = IZR (eta j k)).
  { intros b j k Hj Hk. destruct (in_ball_bounds j b Hj) as [Bj Bb]. destruct (in_ball_bounds k b Hk) as [Bk _].
    destruct (P3 b Bb) as [Q _]. destruct (Q (ex_intro _ j Hj)) as (_ & S1 & W1 & _).
    unfold lift; rewrite (co_landmarks _ _ _ C).
    apply (lifts_difference n (fun s => w s b) (fun s => in_ball ld r s b)); [exact S1| |].
    - intros s Hs Ns; apply (proj2 (W1 s Hs)). destruct (W1 s Hs) as [W2 _]; lra.
    - intros s Hs Bs. apply (eta_cocycle c eta Lc An Hc); [assumption..|]. apply (CL b); repeat constructor; assumption. }
  assert (Fm : forall b j, in_ball ld r j b ->
     lift x r f (fun i => nth i g 0) eta j b = nth j g 0 + sumn n (fun s => full ll t h j s * w s b)).
  { intros b j Hj. destruct (in_ball_bounds j b Hj) as [Bj Bb].
    destruct (P3 b Bb) as [Q _]. destruct (Q (ex_intro _ j Hj)) as (_ & S1 & W1 & _).
    unfold lift; rewrite (co_landmarks _ _ _ C). symmetry.
    apply (lifts_formula n (fun s => w s b) (fun s => in_ball ld r s b) (fun i => nth i g 0) eta (full ll t h) j S1); [|exact Hj|].
    - intros s Hs Ns; apply (proj2 (W1 s Hs)). destruct (W1 s Hs) as [W2 _]; lra.
    - intros s Hs Bs. apply Hh; [assumption..|]. apply (CL b); repeat constructor; assumption. }
  split; [|split; assumption]. split; [exact Lr|]. intros b Hb; destruct (Hr b Hb) as [R1 R2]. split; [|exact R2].
  intros j Hj. destruct (P3 b Hb) as [Q _]. destruct (Q (ex_intro _ j Hj)) as (_ & _ & _ & k & Ek & Bk & _).
  eexists; split; [apply (R1 k Ek (ex_intro _ j Hj))|]. split; [apply mod_two_pi_range|].
  eapply same_trans; [apply mod_two_pi_same|].
  rewrite <- (Fm b k Bk). exists (eta k j).
  rewrite <- Rmult_minus_distr_l, (D b k j Bk Hj); ring.
Qed.
Lemma class_row ext junk M0 W c h g eta row : (forall A b, length (x_lsqr ext A b) = s_cols A) ->
  make_delta0 Rltb junk ll t T = Ok M0 -> make_inner_product Rltb junk ll t T = Ok W -> length c = comb n 2 ->
  integrate_harmonic_representative (x_lsqr ext) c M0 (snd W) = Ok (h, g) -> antisymmetric T n c eta ->
  sparse_integrate h g varphi ball ll t T = Ok row ->
  metric x -> t = 2 * r -> one_cocycle Rltb ll t T c ->
  classified_by x N r f row (fun i => nth i g 0) eta /\
  (forall b j k, in_ball ld r j b -> in_ball ld r k b ->
     lift x r f (fun i => nth i g 0) eta j b - lift x r f (fun i => nth i g 0) eta k b = IZR (eta j k)) /\
  (forall b j, in_ball ld r j b ->
     lift x r f (fun i => nth i g 0) eta j b = nth j g 0 + sumn n (fun s => full ll t h j s * w s b)).
Proof.
  intros Hl E0 EW Lc EI An ES Me Ht Hc. apply (class_row_joined ext junk M0 W c h g eta row); try assumption.
  intros i j b Hij Hi Hj. apply (balls_close i j b Me Ht Hij Hi Hj).
Qed.
End Rows.

(** ** Several classes *)
Lemma map_res_nth {A B} (f : A -> res B) l l' i x : map_res f l = Ok l' -> nth_error l i = Some x ->
  exists y, nth_error l' i = Some y /\ f x = Ok y.
Proof.
  intros E; apply map_res_ok2 in E. revert i; induction E as [|a b l l' H F IH]; intros [|i] Hi; try discriminate.
  - cbn in Hi; injection Hi as <-; exists b; auto.
  - apply IH, Hi.
Qed.
Lemma f2_nth {A B} (P : A -> B -> Prop) l l' i x : Forall2 P l l' -> nth_error l i = Some x -> exists y, nth_error l' i = Some y /\ P x y.
Proof.
  intros E; revert i; induction E as [|a b l l' H F IH]; intros [|i] Hi; try discriminate.
  - cbn in Hi; injection Hi as <-; exists b; auto.
  - apply IH, Hi.
Qed.
Lemma f2_nth2 {A B} (P : A -> B -> Prop) l l' i y : Forall2 P l l' -> nth_error l' i = Some y -> exists x, nth_error l i = Some x /\ P x y.
Proof.
  intros E; revert i; induction E as [|a b l l' H F IH]; intros [|i] Hi; try discriminate.
  - cbn in Hi; injection Hi as <-; exists a; auto.
  - apply IH, Hi.
Qed.

Lemma gram_shape vs W gm : gram_matrix vs W = Ok gm -> matrix (length vs) (length vs) gm.
Proof.
  intros E; split; [apply (map_res_length _ _ _ E)|].
  apply Forall_forall; intros row Hr; apply In_nth_error in Hr; destruct Hr as (i & Hi).
  apply map_res_ok2 in E. destruct (f2_nth2 _ _ _ _ _ E Hi) as (v & _ & Ev). apply (map_res_length _ _ _ Ev).
Qed.

Section Classes.
Variables (x : tor) (n N : nat) (ext : externals).
Hypothesis C : consistent x n N.
Hypothesis HE : sound_numpy ext.
Variables (f : R -> R -> R) (t : R).
Hypothesis Hf : bump f (t / 2).
Notation ll := (em_dist_land_land (t_em x)).
Notation T := (t_table x).

Lemma vecs_ok lifted : Forall (edge_cocycle n) lifted ->
  exists vecs, map_res (fun c => sparse_cocycle_to_vector (x_argsort ext) c T (em_n_landmarks (t_em x))) lifted = Ok vecs /\
    Forall (fun v => length v = comb n 2) vecs.
Proof.
  intros F. destruct (co_table _ _ _ C) as (n' & Hn' & ET). rewrite (co_landmarks _ _ _ C), ET.
  induction F as [|c l Hc F IH]; [exists []; split; [reflexivity|constructor]|]. destruct IH as (vs & E & Fv).
  destruct (edge_vector (x_argsort ext) n n' c (proj1 HE) Hn' Hc) as (v & Ev & Lv).
  exists (v :: vs); cbn [map_res]; rewrite Ev; cbn [bind]; rewrite E; split; [reflexivity|constructor; assumption].
Qed.

(** The individual rows. *)
Lemma rows_matrix M0 W etas hf A : Forall (fun v => length v = comb n 2) etas ->
  make_delta0 Rltb (x_junk ext) ll t T = Ok M0 -> make_inner_product Rltb (x_junk ext) ll t T = Ok W ->
  map_res (fun c => integrate_harmonic_representative (x_lsqr ext) c M0 (snd W)) etas = Ok hf ->
  map_res (fun hi => sparse_integrate (fst hi) (snd hi) (fst (get_covering_partition (t_em x) (t / 2) f))
       (snd (get_covering_partition (t_em x) (t / 2) f)) ll t T) hf = Ok A ->
  matrix (length etas) N A /\ Forall (range_and_nan x N (t / 2)) A.
Proof.
  intros F E0 EW Ehf EA.
  pose proof (map_res_length _ _ _ Ehf) as L1. pose proof (map_res_length _ _ _ EA) as L2.
  assert (G : forall row, In row A -> length row = N /\ range_and_nan x N (t / 2) row).
  { intros row Hr. apply In_nth_error in Hr; destruct Hr as (i & Hi).
    apply map_res_ok2 in EA. destruct (f2_nth2 _ _ _ _ _ EA Hi) as ([h g] & Hh & Es). cbn [fst snd] in Es.
    apply map_res_ok2 in Ehf. destruct (f2_nth2 _ _ _ _ _ Ehf Hh) as (c & Hc & Ei).
    rewrite Forall_forall in F. pose proof (F c (nth_error_In _ _ Hc)) as Lc.
    destruct (harmonic_value x n N C t ext (x_junk ext) M0 W c h g _ (proj2 HE) E0 EW Lc Ei (eta_of_anti x n N C c Lc)) as (Lg & Lh & _).
    destruct (row_ok x n N C f (t / 2) t Hf h g Lh Lg) as (row' & Es' & Lr & Hr). rewrite Es in Es'; injection Es' as <-.
    split; [exact Lr|]. split; [exact Lr|]. intros b Hb; destruct (Hr b Hb) as [R1 R2]. split; [|exact R2].
    intros Hc'. destruct (part_ok x n N C f (t / 2) Hf) as (_ & _ & P3). destruct (P3 b Hb) as [Q _].
    destruct (Q Hc') as (_ & _ & _ & k & Ek & _). eexists; split; [apply (R1 k Ek Hc')|apply mod_two_pi_range]. }
  split; [split; [congruence|]|]; apply Forall_forall; intros row Hr; apply G, Hr.
Qed.
End Classes.

Lemma range_nan_pattern x N r A : Forall (range_and_nan x N r) A ->
  forall i b, (i < length A)%nat -> (b < N)%nat -> forall v, entry A i b v ->
  (forall y, v = Some y -> on_circle y /\ ~ (forall j, ~ in_ball (em_dist_land_data (t_em x)) r j b)) /\
  (v = None -> ~ (exists j, in_ball (em_dist_land_data (t_em x)) r j b)).
Proof.
  intros F i b Hi Hb v (row & E1 & E2). rewrite Forall_forall in F.
  destruct (F row (nth_error_In _ _ E1)) as [L H]. destruct (H b Hb) as [H1 H2]. split.
  - intros y ->. assert (NC : ~ (forall j, ~ in_ball (em_dist_land_data (t_em x)) r j b)) by (intros Hn; rewrite (H2 Hn) in E2; discriminate).
    split; [|exact NC]. destruct (F row (nth_error_In _ _ E1)) as [_ H']. clear H1 H2.
    (* decide coverage through the entry *)
    destruct (Rle_dec 0 y) as [Y1|Y1]; [destruct (Rlt_dec y (2 * PI)) as [Y2|Y2]; [split; assumption|]|];
    exfalso; apply NC; intros j Hj; destruct (H' b Hb) as [H1 _]; destruct (H1 (ex_intro _ j Hj)) as (v & Ev & Cv);
    rewrite Ev in E2; injection E2 as <-; destruct Cv; contradiction.
  - intros -> Hc; destruct (H1 Hc) as (y & Ey & _); rewrite Ey in E2; discriminate.
Qed.

Lemma lift_combination x r f k (u : nat -> Z) (g : nat -> nat -> R) (eta : nat -> nat -> nat -> Z) j b :
  lift x r f (fun s => sumn k (fun h => IZR (u h) * g h s)) (fun a c => sumnZ k (fun h => (u h * eta h a c)%Z)) j b =
  sumn k (fun h => IZR (u h) * lift x r f (g h) (eta h) j b).
Proof.
  unfold lift.
  rewrite (sumn_ext k (fun h => IZR (u h) * _) (fun h => sumn (em_n_landmarks (t_em x)) (fun s => IZR (u h) * (weight_at x r f s b * (g h s + IZR (eta h j s))))))
    by (intros h _; rewrite sumn_scal; reflexivity).
  rewrite sumn_swap. apply sumn_ext; intros s _.
  rewrite sumnZ_IZR, <- sumn_add, <- sumn_scal. apply sumn_ext; intros h _. rewrite mult_IZR; ring.
Qed.

Lemma combine_rows x N r A k U rows : (1 <= k)%nat -> matrix k N A -> Forall (range_and_nan x N r) A -> matrix k k U ->
  linear_combination A (Coeffs2 (map (map IZR) U)) = Ok (Maps2 rows) ->
  matrix k N rows /\ Forall (range_and_nan x N r) rows /\
  forall f (g : nat -> nat -> R) (eta : nat -> nat -> nat -> Z),
    (forall h row, nth_error A h = Some row -> classified_by x N r f row (g h) (eta h)) ->
    forall i row, nth_error rows i = Some row ->
      classified_by x N r f row (fun s => sumn k (fun h => IZR (at2 0%Z U i h) * g h s))
        (fun a c => sumnZ k (fun h => (at2 0%Z U i h * eta h a c)%Z)).
Proof.
  intros Hk HA FA HU E.
  destruct (C55_linear_combination U A k k N HU HA Hk Hk) as (out & Eo & Ho & H).
  rewrite E in Eo; injection Eo as <-. split; [exact Ho|].
  assert (NaN : forall b, (b < N)%nat -> (forall j, ~ in_ball (em_dist_land_data (t_em x)) r j b) -> exists h, entry A h b None).
  { intros b Hb Hn. exists 0%nat. destruct (matrix_entry k N A 0 b HA ltac:(lia) Hb) as (v & Ev).
    destruct v as [y|]; [|exact Ev]. exfalso.
    destruct (range_nan_pattern x N r A FA 0 b ltac:(destruct HA; lia) Hb _ Ev) as [G _]. apply (proj2 (G y eq_refl)); exact Hn. }
  assert (Val : forall b, (b < N)%nat -> (exists j, in_ball (em_dist_land_data (t_em x)) r j b) ->
     forall h, (h < k)%nat -> entry A h b (Some (match at2 None A h b with Some y => y | None => 0 end))).
  { intros b Hb Hc h Hh. destruct (matrix_entry k N A h b HA Hh Hb) as (v & Ev). rewrite (entry_at2 _ _ _ _ None Ev).
    destruct v as [y|]; [exact Ev|]. exfalso.
    destruct (range_nan_pattern x N r A FA h b ltac:(destruct HA; lia) Hb _ Ev) as [_ G]. apply G; auto. }
  assert (Shape : forall i row, nth_error rows i = Some row -> (i < k)%nat /\ length row = N).
  { intros i row Hi; split; [pose proof (some_lt _ _ _ Hi); destruct Ho; lia|apply (matrix_row k N rows i row Ho Hi)]. }
  split.
  - apply Forall_forall; intros row Hr; apply In_nth_error in Hr; destruct Hr as (i & Hi).
    destruct (Shape i row Hi) as [Hik Lr]. split; [exact Lr|]. intros b Hb; destruct (H i b Hik Hb) as [H1 H2]. split.
    + intros Hc. destruct (H2 _ (Val b Hb Hc)) as (y & (row' & E1 & E2) & Cy & _). rewrite Hi in E1; injection E1 as <-.
      exists y; auto.
    + intros Hn. destruct (H1 (NaN b Hb Hn)) as (row' & E1 & E2). rewrite Hi in E1; injection E1 as <-; exact E2.
  - intros f g eta HC i row Hi. destruct (Shape i row Hi) as [Hik Lr]. split; [exact Lr|].
    intros b Hb; destruct (H i b Hik Hb) as [H1 H2]. split.
    + intros j Hj. destruct (H2 _ (Val b Hb (ex_intro _ j Hj))) as (y & (row' & E1 & E2) & Cy & Sy).
      rewrite Hi in E1; injection E1 as <-. exists y; split; [exact E2|]. split; [exact Cy|].
      eapply same_trans; [exact Sy|]. rewrite lift_combination, <- sumn_scal.
      apply same_sumn; intros h Hh.
      replace (2 * PI * (IZR (at2 0%Z U i h) * lift x r f (g h) (eta h) j b)) with
        (IZR (at2 0%Z U i h) * (2 * PI * lift x r f (g h) (eta h) j b)) by ring.
      apply same_scal. pose proof (Val b Hb (ex_intro _ j Hj) h Hh) as (rw & W1 & W2).
      destruct (HC h rw W1) as [_ HC2]. destruct (HC2 b Hb) as [HC3 _]. destruct (HC3 j Hj) as (v & V1 & _ & V3).
      rewrite W2 in V1; injection V1 as ->; exact V3.
    + intros Hn. destruct (H1 (NaN b Hb Hn)) as (row' & E1 & E2). rewrite Hi in E1; injection E1 as <-; exact E2.
Qed.

Lemma unimodular_id k : unimodular k (zmat_id k).
Proof.
  assert (M : matrix k k (zmat_id k)) by apply matrix_mk2.
  assert (E : zmat_mul k k (zmat_id k) (zmat_id k) k = zmat_id k).
  { unfold zmat_mul. apply (matrix_ext k k _ _ 0%Z (matrix_mk2 _ _ _) M); intros i j Hi Hj. rewrite at2_mk2 by assumption.
    unfold zmat_id. rewrite at2_mk2 by assumption.
    assert (Single : forall n (F : nat -> Z) a, (a < n)%nat -> (forall h, (h < n)%nat -> h <> a -> F h = 0%Z) -> sumnZ n F = F a).
    { intros n F a; induction n as [|n IH]; intros Ha Hz; [lia|]. cbn [sumnZ].
      destruct (Nat.eq_dec a n) as [->|Na].
      - rewrite (sumnZ_0 n F); [lia|intros h Hh; apply Hz; lia].
      - rewrite IH by (lia || (intros; apply Hz; lia)). rewrite (Hz n) by lia; lia. }
    rewrite (Single k _ i Hi).
    - rewrite !at2_mk2, Nat.eqb_refl by assumption. destruct (i =? j)%nat; reflexivity.
    - intros h Hh Hne. rewrite at2_mk2 by assumption. rewrite (proj2 (Nat.eqb_neq i h)) by congruence; reflexivity. }
  split; [exact M|]. exists (zmat_id k); auto.
Qed.

Lemma call_main ext x n N perc idxs f sr check x' rows :
  consistent x n N -> sound_numpy ext -> sound_cholesky ext -> (forall r, bump f r) ->
  get_coordinates ext x perc idxs f sr check = (x', Ok rows) ->
  exists reps birth death t lifted vecs etas M0 W hf A U,
    map_res (fun k => get_representative_cocycle (t_em x) k 1) idxs = Ok reps /\ (1 <= length idxs)%nat /\
    In birth (map (fun r => fst (fst r)) reps) /\ (forall y, In y (map (fun r => fst (fst r)) reps) -> y <= birth) /\
    In death (map (fun r => snd (fst r)) reps) /\ (forall y, In y (map (fun r => snd (fst r)) reps) -> death <= y) /\
    birth < death /\ (if sr then 2 * birth else birth) <= death /\
    t = (1 - perc) * (if sr then 2 * birth else birth) + perc * death /\
    em_rips_threshold (t_em x') = Some t /\ em_r_cover (t_em x') = Some (t / 2) /\
    Forall2 (fun rep lc => exists m, lc = Nat.iter (S m) (lift_to_integer_cocycle (em_prime (t_em x))) (snd rep)) reps lifted /\
    map_res (fun c => sparse_cocycle_to_vector (x_argsort ext) c (t_table x) n) lifted = Ok vecs /\
    Forall (fun v => length v = comb n 2) vecs /\
    (forall n', (n <= n')%nat -> t_table x = combinatorial_number_system_table n' 2 ->
      Forall2 (fun v e => if check then repaired (em_dist_land_land (t_em x)) t n' (x_junk ext) (em_prime (t_em x)) (x_milp ext) v e else e = v) vecs etas) /\
    make_delta0 Rltb (x_junk ext) (em_dist_land_land (t_em x)) t (t_table x) = Ok M0 /\
    make_inner_product Rltb (x_junk ext) (em_dist_land_land (t_em x)) t (t_table x) = Ok W /\
    Forall (fun v => length v = comb n 2) etas /\
    map_res (fun c => integrate_harmonic_representative (x_lsqr ext) c M0 (snd W)) etas = Ok hf /\
    map_res (fun hi => sparse_integrate (fst hi) (snd hi) (fst (get_covering_partition (t_em x) (t / 2) f))
       (snd (get_covering_partition (t_em x) (t / 2) f)) (em_dist_land_land (t_em x)) t (t_table x)) hf = Ok A /\
    matrix (length idxs) N A /\ Forall (range_and_nan x N (t / 2)) A /\
    unimodular (length idxs) U /\ (length idxs = 1%nat -> U = zmat_id 1 /\ rows = A) /\
    linear_combination A (Coeffs2 (map (map IZR) U)) = Ok (Maps2 rows) /\
    (length idxs = 1%nat -> t_original_gram x' = t_original_gram x /\ t_gram x' = t_gram x /\ t_change_basis x' = t_change_basis x) /\
    ((1 < length idxs)%nat -> exists gm L B', gram_matrix (map fst hf) (fst W) = Ok gm /\ x_cholesky ext gm = Ok L /\
       lll (x_fuel ext) L = Ok (B', map (map IZR) U) /\ matrix (length idxs) (length idxs) gm /\ recombined (length idxs) U L B' /\
       matrix (length idxs) (length idxs) B' /\
       t_original_gram x' = Some gm /\ t_gram x' = Some (times_transpose B') /\ t_change_basis x' = Some (map (map IZR) U)).
Proof.
  intros C HE HC Hf E. destruct (co_classes _ _ _ C) as (dgm & cs & E1 & E2 & L & Fe).
  destruct (call_anatomy ext x perc idxs f sr check x' rows dgm cs E1 E2 L E) as
    (reps & birth & death & lifted & t & g & Ereps & Nn & B1 & B2 & D1 & D2 & Lt & St & Et & T1 & T2 & _ & _ & Fl & Ec & Gn & Gs).
  assert (Lreps : length reps = length idxs) by (apply (map_res_length _ _ _ Ereps)).
  pose proof (f2_length Fl) as Ll.
  destruct (coordinates_inv _ _ _ _ _ _ _ _ _ _ Ec) as (M0 & vecs & etas & W & hf & A & E0 & Ev & Eeta & EW & Ehf & EA & One & Many).
  destruct (co_table _ _ _ C) as (n0 & Hn0 & ET).
  destruct (sq_ll x n N C) as [Sq Ln].
  assert (Fl' : Forall (edge_cocycle n) lifted).
  { apply Forall_forall; intros c Hc. apply In_nth_error in Hc; destruct Hc as (i & Hi).
    destruct (f2_nth2 _ _ _ _ _ Fl Hi) as (rep & Hrep & m & ->). apply lifts_edge.
    apply (reps_char _ dgm cs idxs reps E1 E2 L) in Ereps; destruct Ereps as [F ->].
    rewrite nth_error_map in Hrep. destruct (nth_error idxs i) as [k|] eqn:Ek; [|discriminate]. cbn in Hrep; injection Hrep as <-. cbn [snd].
    rewrite Forall_forall in F, Fe. specialize (F k (nth_error_In _ _ Ek)). unfold posn.
    destruct (class_pos (length cs) k) as [q|] eqn:Ep; [|congruence]. apply Fe, nth_In.
    destruct k; cbn in Ep; [exact (pos_lt _ _ _ Ep)|discriminate]. }
  destruct (vecs_ok x n N ext C HE lifted Fl') as (vecs' & Ev' & Fv). rewrite Ev in Ev'; injection Ev' as <-.
  pose proof (map_res_length _ _ _ Ev) as Lv.
  assert (Frep : forall n', (n <= n')%nat -> t_table x = combinatorial_number_system_table n' 2 ->
      Forall2 (fun v e => if check then repaired (em_dist_land_land (t_em x)) t n' (x_junk ext) (em_prime (t_em x)) (x_milp ext) v e else e = v) vecs etas).
  { intros n' Hn' ET'. destruct check; [|subst etas; apply Forall2_refl'; reflexivity].
    rewrite ET' in Eeta. apply repair_all_inv in Eeta; [exact Eeta|exact Sq|lia|rewrite Ln; exact Fv]. }
  assert (Feta : Forall (fun v => length v = comb n 2) etas).
  { apply Forall_forall; intros e He; apply In_nth_error in He; destruct He as (i & Hi).
    destruct (f2_nth2 _ _ _ _ _ (Frep n0 Hn0 ET) Hi) as (v & Hv & Hr). rewrite Forall_forall in Fv. pose proof (Fv v (nth_error_In _ _ Hv)) as Lvv.
    destruct check; [|congruence]. apply repaired_length in Hr; congruence. }
  pose proof (f2_length (Frep n0 Hn0 ET)) as Le.
  destruct (rows_matrix x n N ext C HE f t (Hf _) M0 W etas hf A Feta E0 EW Ehf EA) as [MA FA].
  assert (Lk : length etas = length idxs) by congruence. rewrite Lk in MA.
  assert (K1 : (1 <= length idxs)%nat) by (destruct idxs; [congruence|cbn; lia]).
  assert (Cg : length idxs = 1%nat -> t_original_gram x' = t_original_gram x /\ t_gram x' = t_gram x /\ t_change_basis x' = t_change_basis x).
  { intros H1. apply Gn. apply One. lia. }
  assert (U : exists U, unimodular (length idxs) U /\ (length idxs = 1%nat -> U = zmat_id 1 /\ rows = A) /\
    linear_combination A (Coeffs2 (map (map IZR) U)) = Ok (Maps2 rows) /\
    ((1 < length idxs)%nat -> exists gm L B', gram_matrix (map fst hf) (fst W) = Ok gm /\ x_cholesky ext gm = Ok L /\
       lll (x_fuel ext) L = Ok (B', map (map IZR) U) /\ matrix (length idxs) (length idxs) gm /\ recombined (length idxs) U L B' /\
       matrix (length idxs) (length idxs) B' /\
       t_original_gram x' = Some gm /\ t_gram x' = Some (times_transpose B') /\ t_change_basis x' = Some (map (map IZR) U))).
  { destruct (Nat.eq_dec (length idxs) 1) as [H1|H1].
    - destruct (One ltac:(lia)) as [-> ->]. exists (zmat_id 1). split; [rewrite H1; apply unimodular_id|]. split; [auto|]. split; [|lia].
      rewrite H1 in MA. apply (C55_identity A 1 N MA ltac:(lia)).
      + intros i b v Hv. destruct (entry_bounds _ _ _ _ _ _ MA Hv) as [Bi Bb].
        destruct (range_nan_pattern x N (t / 2) A FA i b ltac:(destruct MA; lia) Bb _ Hv) as [G _]. apply (G v eq_refl).
      + intros i j b Hv Hj. destruct (entry_bounds _ _ _ _ _ _ MA Hv) as [Bi _].
        assert (i = 0%nat) by lia. assert (j = 0%nat) by lia. subst; exact Hv.
    - assert (Hl : (1 < length lifted)%nat) by lia. destruct (Many Hl) as (gm & Lm & B' & ch & Eg & Ech & El & Elc & ->).
      pose proof (gram_shape _ _ _ Eg) as Mg. rewrite map_length, (map_res_length _ _ _ Ehf), Lk in Mg.
      destruct (HC _ _ _ Mg Ech) as [ML _].
      destruct (C37_result (length idxs) Lm (x_fuel ext) B' ch ML El) as (MB & (U & HU & -> & HR) & _).
      exists U; split; [exact HU|]. split; [intros; contradiction|]. split; [exact Elc|]. intros _.
      exists gm, Lm, B'. destruct (Gs _ _ _ eq_refl) as (G1 & G2 & G3). repeat split; try assumption; try apply Mg; try apply MB. }
  destruct U as (U & U1 & U2 & U3 & U4).
  exists reps, birth, death, t, lifted, vecs, etas, M0, W, hf, A, U.
  rewrite (co_landmarks _ _ _ C) in Ev.
  repeat match goal with |- _ /\ _ => split end; try assumption; try (apply MA); try (apply U1).
Qed.

(** One class selected in a successful call of get_coordinates with repair. *)
Lemma class_parts ext x n N t idx death0 birth0 c lc m v e eps tol :
  consistent x n N -> sound_numpy ext -> 0 <= eps -> 0 <= tol -> 3 * eps + tol < 1 -> sound_milp eps tol (x_milp ext) ->
  class_of x idx birth0 death0 c -> vec_until (x_argsort ext) x death0 c -> t <= death0 ->
  lc = Nat.iter m (lift_to_integer_cocycle (em_prime (t_em x))) c ->
  sparse_cocycle_to_vector (x_argsort ext) lc (t_table x) n = Ok v ->
  (forall n', (n <= n')%nat -> t_table x = combinatorial_number_system_table n' 2 ->
     repaired (em_dist_land_land (t_em x)) t n' (x_junk ext) (em_prime (t_em x)) (x_milp ext) v e) ->
  exists vec, sparse_cocycle_to_vector (x_argsort ext) c (t_table x) n = Ok vec /\
    congruent_mod (em_prime (t_em x)) vec e /\
    one_cocycle Rltb (em_dist_land_land (t_em x)) t (t_table x) e.
Proof.
  intros C HE He Ht Het Hm Ec Hu Htd Elc' Evv Rep0.
  destruct (co_table _ _ _ C) as (n' & Hn' & ET). pose proof (Rep0 n' Hn' ET) as Rep.
  destruct (sq_ll x n N C) as [Sq Ln].
  assert (Ecc : edge_cocycle n c).
  { destruct (co_classes _ _ _ C) as (dgm & cs & G1 & G2 & G3 & G4). apply em_class1 in Ec.
    rewrite (rep_ok _ dgm cs idx G1 G2 G3) in Ec. destruct idx as [z|]; [|discriminate].
    destruct (class_pos (length cs) (PyInt z)) as [q|] eqn:Ep; [|discriminate]. injection Ec as _ <-.
    rewrite Forall_forall in G4. apply G4, nth_In. exact (pos_lt _ _ _ Ep). }
  destruct (edge_vector (x_argsort ext) n n' c (proj1 HE) Hn' Ecc) as (vec & Evec & Lvec). rewrite <- ET in Evec.
  destruct (lifts_vector (x_argsort ext) (em_prime (t_em x)) (t_table x) n m c vec Evec) as (v2 & Ev2 & Cv).
  rewrite <- Elc' in Ev2. rewrite Evv in Ev2; injection Ev2 as <-.
  assert (Hmod : one_cocycle_mod Rltb (em_dist_land_land (t_em x)) t (t_table x) (em_prime (t_em x)) vec).
  { apply (Hu t vec Htd). rewrite (co_landmarks _ _ _ C); exact Evec. }
  rewrite ET in Hmod. pose proof (co_pos _ _ _ C) as HP. pose proof (co_prime _ _ _ C) as Hpr.
  pose proof (lift_mod_cocycle Rltb _ t n' _ vec v ltac:(rewrite Ln; exact Hn') Cv ltac:(rewrite Ln; exact Lvec) Hmod) as Hmv.
  assert (Hn2 : (Z.of_nat (length (em_dist_land_land (t_em x))) <= 2345)%Z) by (rewrite Ln; lia).
  assert (Hpp : (0 < em_prime (t_em x))%Z) by lia.
  assert (Lv : length v = comb n 2) by (rewrite <- Lvec; symmetry; apply (f2_length Cv)).
  destruct (repaired_sound _ t n' (x_junk ext) _ (x_milp ext) Sq ltac:(rewrite Ln; exact Hn') v e eps tol Hn2 Hpp He Ht Het Hm
       ltac:(rewrite Ln; exact Lv) Hmv Rep) as [S1 S2].
  exists vec. rewrite <- ET in S1. split; [exact Evec|]. split; [eapply cong_trans; eassumption|exact S1].
Qed.

Lemma circular_parts ext x n N perc idx f sr x' row birth death c :
  consistent x n N -> sound_numpy ext -> sound_cholesky ext -> sound_solver ext -> (forall r, bump f r) ->
  perc <= 1 -> class_of x idx birth death c -> vec_until (x_argsort ext) x death c ->
  circular_get_coordinates ext x perc idx f sr true = (x', Ok row) ->
  exists t vec etavec M0 W h g,
    em_rips_threshold (t_em x') = Some t /\ em_r_cover (t_em x') = Some (t / 2) /\
    birth < death /\ t <= death /\
    sparse_cocycle_to_vector (x_argsort ext) c (t_table x) n = Ok vec /\
    congruent_mod (em_prime (t_em x)) vec etavec /\
    one_cocycle Rltb (em_dist_land_land (t_em x)) t (t_table x) etavec /\ length etavec = comb n 2 /\
    make_delta0 Rltb (x_junk ext) (em_dist_land_land (t_em x)) t (t_table x) = Ok M0 /\
    make_inner_product Rltb (x_junk ext) (em_dist_land_land (t_em x)) t (t_table x) = Ok W /\
    integrate_harmonic_representative (x_lsqr ext) etavec M0 (snd W) = Ok (h, g) /\
    sparse_integrate h g (fst (get_covering_partition (t_em x) (t / 2) f))
       (snd (get_covering_partition (t_em x) (t / 2) f)) (em_dist_land_land (t_em x)) t (t_table x) = Ok row.
Proof.
  intros C HE HC (eps & tol & He & Ht & Het & Hm) Hf Hp Hcl Hu E.
  unfold circular_get_coordinates in E. destruct (get_coordinates ext x perc [idx] f sr true) as [x1 [rows|]] eqn:Eg; [|discriminate].
  cbn [bind] in E. assert (x1 = x') as -> by congruence. assert (Er : get IndexError rows 0 = Ok row) by congruence. clear E.
  destruct (call_main ext x n N perc [idx] f sr true x' rows C HE HC Hf Eg) as
    (reps & b0 & d0 & t & lifted & vecs & etas & M0 & W & hf & A & U & Ereps & K1 & B1 & B2 & D1 & D2 & Lt & St & Et & T1 & T2 & Fl & Ev & Fv & Frep & E0 & EW & Feta & Ehf & EA & MA & FA & HU & U1 & Elc & _ & _).
  destruct (U1 eq_refl) as [_ ->]. cbn [map_res] in Ereps. pose proof (proj1 (em_class1 _ _ _ _ _) Hcl) as Hcl'. rewrite Hcl' in Ereps. cbn [bind] in Ereps. injection Ereps as <-.
  inversion Fl as [|rep0 lc l1 l2 (m & Hm0) F1]; subst. inversion F1; subst. cbn [snd map_res] in *.
  destruct B1 as [<-|[]]. destruct D1 as [<-|[]].
  destruct (sparse_cocycle_to_vector _ _ _ _) as [v|] eqn:Evv in Ev; cbn [bind] in Ev; [|discriminate]. injection Ev as <-.
  destruct (co_table _ _ _ C) as (n' & Hn' & ET). pose proof (Frep n' Hn' ET) as Fr.
  inversion Fr as [|v0 e l1 l2 Rep F2]; subst. inversion F2; subst. clear Fr F2.
  inversion Feta as [|? ? Le _]; subst. cbn [map_res] in Ehf.
  destruct (integrate_harmonic_representative _ e M0 (snd W)) as [[h g]|] eqn:Ei; cbn [bind] in Ehf; [|discriminate]. injection Ehf as <-.
  cbn [map_res fst snd] in EA. destruct (sparse_integrate _ _ _ _ _ _ _) as [rw|] eqn:Es in EA; cbn [bind] in EA; [|discriminate]. injection EA as <-.
  cbn in Er; injection Er as ->. cbn [map fst snd] in *.
  set (t := (1 - perc) * (if sr then 2 * birth else birth) + perc * death) in *.
  assert (Htd : t <= death) by (unfold t; destruct sr; nra).
  destruct (class_parts ext x n N t idx death birth c _ (S m) v e eps tol C HE He Ht Het Hm Hcl Hu Htd eq_refl Evv) as (vec & G1 & G2 & G3).
  { intros n2 Hn2 ET2. pose proof (Frep n2 Hn2 ET2) as Fr. inversion Fr; assumption. }
  exists t, vec, e, M0, W, h, g. repeat match goal with |- _ /\ _ => split; [assumption|] end. exact Es.
Qed.

(** ** Sparse values and dense values *)
Lemma last_match {A} (P : A -> Prop) (D : forall a, {P a} + {~ P a}) (l : list A) :
  (exists pre x post, l = pre ++ x :: post /\ P x /\ forall y, In y post -> ~ P y) \/ (forall y, In y l -> ~ P y).
Proof.
  induction l as [|a l [IH|IH]]; [right; intros y []| |].
  - left. destruct IH as (pre & x & post & -> & Hx & Hp). exists (a :: pre), x, post. auto.
  - destruct (D a) as [Y|Y]; [left; exists [], a, l; auto|right]. intros y [<-|Hy]; auto.
Qed.
Definition edge_pick (i j : nat) (v : Z) (row : list Z * Z) : Z :=
  if list_eq_dec Z.eq_dec (fst row) [Z.of_nat i; Z.of_nat j] then snd row
  else if list_eq_dec Z.eq_dec (fst row) [Z.of_nat j; Z.of_nat i] then (- snd row)%Z else v.
Definition names_edge (i j : nat) (row : list Z * Z) : Prop := fst row = [Z.of_nat i; Z.of_nat j] \/ fst row = [Z.of_nat j; Z.of_nat i].
Lemma edge_pick_skip i j v l : (forall y, In y l -> ~ names_edge i j y) -> fold_left (edge_pick i j) l v = v.
Proof.
  revert v; induction l as [|a l IH]; intros v H; [reflexivity|]. cbn [fold_left]. rewrite IH by (intros y Hy; apply H; right; exact Hy).
  pose proof (H a (or_introl eq_refl)) as Ha. unfold edge_pick, names_edge in *.
  destruct (list_eq_dec _ _ _); [tauto|]. destruct (list_eq_dec _ _ _); [tauto|]. reflexivity.
Qed.
Lemma sparse_edge_value argsort n N c vec : (forall l, is_argsort Z.le 0%Z l (argsort l)) -> (n <= N)%nat -> edge_cocycle n c ->
  sparse_cocycle_to_vector argsort c (combinatorial_number_system_table N 2) n = Ok vec ->
  forall i j, (i < j < n)%nat -> value_at (combinatorial_number_system_table N 2) vec [i; j] (sparse_edge c i j).
Proof.
  intros A HN [H1 H2] E i j Hij.
  destruct (C07_sparse_to_dense argsort N 2 n 1 c HN ltac:(lia) A H1) as (v & E' & _ & G).
  { intros vs v Hr; rewrite Forall_forall in H2; apply (H2 _ Hr). }
  rewrite E in E'; injection E' as <-.
  assert (Sx : simplex n 1 [i; j]).
  { split; [reflexivity|split; [repeat constructor; lia|repeat constructor; lia]]. }
  destruct (forward_bijection N 2 n 1 HN ltac:(lia)) as (cnt & _ & B & _).
  destruct (B [i; j] Sx) as (k & Ek & _). exists k. split; [exact Ek|].
  destruct (G [i; j] k Sx Ek) as [G1 G2]. change (map Z.of_nat [i; j]) with [Z.of_nat i; Z.of_nat j] in G1, G2.
  assert (Nm : forall row, Permutation [Z.of_nat i; Z.of_nat j] (fst row) <-> names_edge i j row).
  { intros row. split; [intros P; apply Permutation_length_2_inv in P; exact P|]. intros [-> | ->]; [apply Permutation_refl|apply perm_swap]. }
  change (sparse_edge c i j) with (fold_left (edge_pick i j) (c_rows c) 0%Z).
  destruct (last_match (names_edge i j) (fun row => match list_eq_dec Z.eq_dec (fst row) [Z.of_nat i; Z.of_nat j], list_eq_dec Z.eq_dec (fst row) [Z.of_nat j; Z.of_nat i] with
      | left Y, _ => left (or_introl Y) | _, left Y => left (or_intror Y) | right N1, right N2 => right (fun H => match H with or_introl Y => N1 Y | or_intror Y => N2 Y end) end) (c_rows c))
    as [(pre & [vs w] & post & Er & Hx & Hp)|Hno].
  - rewrite (G1 pre vs w post Er); [|apply (Nm (vs, w)), Hx|].
    + rewrite Er, fold_left_app. cbn [fold_left]. rewrite edge_pick_skip by exact Hp. f_equal. unfold edge_pick; cbn [fst snd].
      unfold names_edge in Hx; cbn [fst] in Hx. destruct Hx as [-> | ->].
      * destruct (list_eq_dec _ _ _) as [_|Y]; [|congruence]. unfold orientation, sign_of, inversions; cbn [filter length].
        destruct (Z.ltb_spec (Z.of_nat j) (Z.of_nat i)); [lia|]. cbn. lia.
      * destruct (list_eq_dec _ _ _) as [Y|_]; [injection Y; lia|]. destruct (list_eq_dec _ _ _) as [_|Y]; [|congruence].
        unfold orientation, sign_of, inversions; cbn [filter length]. destruct (Z.ltb_spec (Z.of_nat i) (Z.of_nat j)); [|lia]. cbn. lia.
    + intros vs' v' I P. apply (Hp (vs', v') I). apply (Nm (vs', v')), P.
  - rewrite G2; [rewrite edge_pick_skip by exact Hno; reflexivity|]. intros vs v I P. apply (Hno (vs, v) I). apply (Nm (vs, v)), P.
Qed.
Lemma value_at_unique {A} table (v : list A) s x y : value_at table v s x -> value_at table v s y -> x = y.
Proof. intros (k & E1 & E2) (k' & E3 & E4). congruence. Qed.
Lemma rips_mono dm t t' d s : t <= t' -> rips Rltb dm t d s -> rips Rltb dm t' d s.
Proof.
  intros H [H1 H2]. split; [exact H1|]. clear H1. induction H2 as [|a l Ha Hl IH]; constructor; [|exact IH].
  eapply Forall_impl; [|exact Ha]. intros b (row & y & E1 & E2 & E3). exists row, y. repeat split; try assumption. apply Rltb_true in E3. apply Rltb_true. lra.
Qed.
Lemma rips_triangle dm t i j k : rips Rltb dm t 2 [i; j; k] -> (i < j < k)%nat /\ (k < length dm)%nat.
Proof.
  intros [(_ & S & F) _]. inversion S as [|? ? S1 F1]; subst. inversion F1; subst. inversion S1 as [|? ? S2 F2]; subst. inversion F2; subst.
  inversion F as [|? ? _ G]; subst. inversion G as [|? ? _ G2]; subst. inversion G2; subst. lia.
Qed.
Section Dense.
Variables (x : tor) (n N : nat).
Hypothesis C : consistent x n N.
Variable ext : externals.
Hypothesis HE : sound_numpy ext.
Lemma class_edge_cocycle idx b d c : class_of x idx b d c -> edge_cocycle n c.
Proof.
  intros Ec. destruct (co_classes _ _ _ C) as (dgm & cs & G1 & G2 & G3 & G4). apply em_class1 in Ec.
  rewrite (rep_ok _ dgm cs idx G1 G2 G3) in Ec. destruct idx as [z|]; [|discriminate].
  destruct (class_pos (length cs) (PyInt z)) as [q|] eqn:Ep; [|discriminate]. injection Ec as _ <-.
  rewrite Forall_forall in G4. apply G4, nth_In. exact (pos_lt _ _ _ Ep).
Qed.
Lemma dense_value c vec : edge_cocycle n c -> sparse_cocycle_to_vector (x_argsort ext) c (t_table x) n = Ok vec ->
  forall i j, (i < j < n)%nat -> value_at (t_table x) vec [i; j] (sparse_edge c i j).
Proof.
  intros Ec. destruct (co_table _ _ _ C) as (n' & Hn' & ET). rewrite ET. apply sparse_edge_value; [apply (proj1 HE)|exact Hn'|exact Ec].
Qed.
Lemma until_vec death c : edge_cocycle n c -> cocycle_until x death c -> vec_until (x_argsort ext) x death c.
Proof.
  intros Ec H t vec Ht Ev i j k a b e Hr Ha Hb He. rewrite (co_landmarks _ _ _ C) in Ev.
  destruct (sq_ll x n N C) as [_ Ln]. destruct (rips_triangle _ _ _ _ _ Hr) as [L1 L2]. rewrite Ln in L2.
  rewrite (value_at_unique _ _ _ _ _ Ha (dense_value c vec Ec Ev i j ltac:(lia))), (value_at_unique _ _ _ _ _ Hb (dense_value c vec Ec Ev j k ltac:(lia))),
    (value_at_unique _ _ _ _ _ He (dense_value c vec Ec Ev i k ltac:(lia))).
  apply H. apply (rips_mono _ t); assumption.
Qed.
Lemma cong_value p vec vec' table s a b : congruent_mod p vec vec' -> value_at table vec s a -> value_at table vec' s b -> (p | a - b)%Z.
Proof. intros H (k & E1 & E2) (k' & E3 & E4). rewrite E1 in E3; injection E3 as <-. destruct (f2_nth _ _ _ _ _ H E2) as (b' & E5 & Q). congruence. Qed.
Lemma vec_lifts c t vec etavec eta : edge_cocycle n c -> sparse_cocycle_to_vector (x_argsort ext) c (t_table x) n = Ok vec ->
  congruent_mod (em_prime (t_em x)) vec etavec -> one_cocycle Rltb (em_dist_land_land (t_em x)) t (t_table x) etavec ->
  antisymmetric (t_table x) n etavec eta -> lifts_class x n t c eta.
Proof.
  intros Ec Ev Hc Ho [A1 A2]. split; [exact A1|]. split.
  - intros i j Hij. pose proof (cong_value _ _ _ _ _ _ _ Hc (dense_value c vec Ec Ev i j Hij) (A2 i j Hij)) as [q Q]. exists (- q)%Z. lia.
  - intros i j k Hr. destruct (sq_ll x n N C) as [_ Ln]. destruct (rips_triangle _ _ _ _ _ Hr) as [L1 L2]. rewrite Ln in L2.
    apply (Ho i j k _ _ _ Hr); apply A2; lia.
Qed.
Lemma vec_cocycle c t vec : edge_cocycle n c -> sparse_cocycle_to_vector (x_argsort ext) c (t_table x) n = Ok vec ->
  cocycle_on (em_dist_land_land (t_em x)) t (fun v => v = 0%Z) (sparse_edge c) -> one_cocycle Rltb (em_dist_land_land (t_em x)) t (t_table x) vec.
Proof.
  intros Ec Ev H i j k a b e Hr Ha Hb He. destruct (sq_ll x n N C) as [_ Ln]. destruct (rips_triangle _ _ _ _ _ Hr) as [L1 L2]. rewrite Ln in L2.
  rewrite (value_at_unique _ _ _ _ _ Ha (dense_value c vec Ec Ev i j ltac:(lia))), (value_at_unique _ _ _ _ _ Hb (dense_value c vec Ec Ev j k ltac:(lia))),
    (value_at_unique _ _ _ _ _ He (dense_value c vec Ec Ev i k ltac:(lia))).
  apply H, Hr.
Qed.
End Dense.

(** ** Lifting is idempotent on field elements *)
Lemma iter_lift_field p m c : (2 <= p)%Z -> Forall (fun row => (0 <= snd row < p)%Z) (c_rows c) ->
  Nat.iter (S m) (lift_to_integer_cocycle p) c = lift_to_integer_cocycle p c.
Proof.
  intros Hp F; induction m as [|m IH]; [reflexivity|].
  change (lift_to_integer_cocycle p (Nat.iter (S m) (lift_to_integer_cocycle p) c) = lift_to_integer_cocycle p c).
  rewrite IH; apply lift_lift; assumption.
Qed.
Lemma iter_lift_field' p m c : (2 <= p)%Z -> Forall (fun row => (0 <= snd row < p)%Z) (c_rows c) ->
  Nat.iter m (lift_to_integer_cocycle p) c = c \/ Nat.iter m (lift_to_integer_cocycle p) c = lift_to_integer_cocycle p c.
Proof. intros Hp F; destruct m as [|m]; [left; reflexivity|right; apply iter_lift_field; assumption]. Qed.

(** ** One class alone *)
Lemma get_rep_inv x n N idx b d c : consistent x n N -> class_of x idx b d c ->
  exists dgm cs i, nth_error (em_dgms (t_em x)) 1 = Some dgm /\ nth_error (em_cocycles (t_em x)) 1 = Some cs /\ length cs = length dgm /\
    class_pos (length cs) idx = Some i /\ nth_error dgm i = Some (b, d) /\ nth_error cs i = Some c.
Proof.
  intros C H. destruct (co_classes _ _ _ C) as (dgm & cs & G1 & G2 & G3 & G4). apply em_class1 in H.
  rewrite (rep_ok _ dgm cs idx G1 G2 G3) in H. destruct idx as [z|]; [|discriminate].
  destruct (class_pos (length cs) (PyInt z)) as [q|] eqn:Ep; [|discriminate]. injection H as H1 H2.
  assert (Hq : (q < length cs)%nat) by exact (pos_lt _ _ _ Ep).
  exists dgm, cs, q. repeat split; try assumption.
  - rewrite <- H1; apply nth_error_nth'; lia.
  - rewrite <- H2; apply nth_error_nth'; lia.
Qed.

Lemma single_front ext x n N perc idx f (sr check : bool) b d c :
  consistent x n N -> class_of x idx b d c -> b < d -> (if sr then 2 * b else b) <= d ->
  let t := (1 - perc) * (if sr then 2 * b else b) + perc * d in
  snd (circular_get_coordinates ext x perc idx f sr check) =
  (r <- coordinates ext (t_em x) (t_table x) [lift_to_integer_cocycle (em_prime (t_em x)) c] (t / 2) t f check ;; get IndexError (fst r) 0).
Proof.
  intros C Hc Hbd Hst t.
  destruct (get_rep_inv x n N idx b d c C Hc) as (dgm & cs & i & G1 & G2 & G3 & Ep & Ed & Ec).
  unfold circular_get_coordinates, get_coordinates. cbn [map_res]. pose proof (proj1 (em_class1 _ _ _ _ _) Hc) as Hc'. rewrite Hc'; cbn [bind map fst snd].
  cbn [np_max np_min fold_left]. 
  assert (Hl : Rleb d b = false) by (unfold Rleb; destruct (Rle_dec d b); [lra|reflexivity]). rewrite Hl.
  assert (F : Forall (fun k => class_pos (length cs) k <> None) [idx]) by (constructor; [congruence|constructor]).
  destruct (lift_aged (t_em x) [idx] dgm cs G1 G2 F) as (store & cs' & -> & A1 & N1 & L1 & H1).
  pose proof (radius_effect (set_cocycles (t_em x) store) perc b d sr) as [A2 K2].
  destruct (get_cover_radius (set_cocycles (t_em x) store) perc b d sr) as [e2 radius] eqn:Eg. cbn [fst] in A2, K2.
  unfold get_cover_radius in Eg. rewrite (proj2 (Rltb_false _ _) Hst) in Eg. injection Eg as Ee2 <-.
  cbn [bind fst snd]. fold t.
  assert (D2 : nth_error (em_dgms e2) 1 = Some dgm) by (destruct A2 as ((_ & -> & _) & _); exact G1).
  assert (M2 : nth_error (em_cocycles e2) 1 = Some cs') by (rewrite K2; exact N1).
  rewrite (rep_ok e2 dgm cs' idx D2 M2 ltac:(congruence)). rewrite L1, Ep.
  destruct idx as [z|]; [|discriminate Ep]. cbn [bind map snd].
  assert (SD : same_data (t_em x) e2) by (eapply same_data_trans; [exact (proj1 A1)|exact (proj1 A2)]).
  rewrite (coordinates_ext ext (t_em x) e2 _ _ _ _ _ _ SD).
  pose proof (H1 i c Ec) as Hi.
  assert (Tm : times (length cs) [PyInt z] i = 1%nat) by (unfold times; cbn [filter]; rewrite Ep, Nat.eqb_refl; reflexivity).
  rewrite Tm in Hi. rewrite (nth_error_nth _ _ (mkCocycle 0 []) Hi).
  change (Nat.iter 1 (lift_to_integer_cocycle (em_prime (t_em x))) c) with (lift_to_integer_cocycle (em_prime (t_em x)) c).
  fold t. destruct (coordinates ext (t_em x) _ _ _ _ _ _) as [[rows g]|e]; cbn [snd bind fst]; [destruct g as [[[? ?] ?]|]|]; reflexivity.
Qed.

Lemma single_call ext x n N perc idx f (sr check : bool) b d c row :
  consistent x n N -> class_of x idx b d c -> b < d -> (if sr then 2 * b else b) <= d ->
  let t := (1 - perc) * (if sr then 2 * b else b) + perc * d in
  coordinates ext (t_em x) (t_table x) [lift_to_integer_cocycle (em_prime (t_em x)) c] (t / 2) t f check = Ok ([row], None) ->
  snd (circular_get_coordinates ext x perc idx f sr check) = Ok row.
Proof.
  intros C Hc Hbd Hst t E. rewrite (single_front ext x n N perc idx f sr check b d c C Hc Hbd Hst). fold t. rewrite E; reflexivity.
Qed.

Lemma repaired_single dm t N junk p milp c c' : square dm -> (length dm <= N)%nat -> (Z.of_nat (length dm) <= 2345)%Z ->
  length c = comb (length dm) 2 -> repaired dm t N junk p milp c c' ->
  repair_all Rltb junk p milp dm t (combinatorial_number_system_table N 2) [c] = Ok [c'].
Proof.
  intros Sq HN Hn Lc H. unfold repair_all, range. cbn [length Nat.sub seq map combine for_in].
  unfold repair_step; cbn [fst snd].
  assert (B : is_binomial (length dm) 2 (length c)) by (rewrite Lc; apply comb_is_binomial).
  destruct (C15_is_one_cocycle Rltb dm t N 2 c Sq HN ltac:(lia) B) as (ans & ff & -> & Ha & _). cbn [bind fst snd].
  destruct H as [[H ->]|(H & M & idx & HM & Er)].
  - apply Ha in H; subst ans; reflexivity.
  - destruct ans; [elim H; apply Ha; reflexivity|]. rewrite HM; cbn [bind].
    assert (Er' : forall i, repair_with p milp M i c = Ok c').
    { intros i; revert Er; unfold repair_with. destruct (matvec _ _); cbn [bind]; [|discriminate].
      destruct (milp _ _) as [s|]; [exact (fun H => H)|discriminate]. }
    rewrite Er'; reflexivity.
Qed.
