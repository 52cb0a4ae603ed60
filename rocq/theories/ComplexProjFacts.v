(** ComplexProjFacts.v -- more lemmas about ComplexProjectiveCoords: the least squares problem,
    the stored lift, the rows of the class map. *)
From Coq Require Import Permutation.
From Verif Require Import Base BaseProofs CombinatorialModel SpecSimplex CombinatorialProofs DeltaModel SpecRips RipsProofs DeltaProofs DeltaFacts
  RealBase CohomologyModel SpecCohomology CohomologyProofs SpecLLL LLLModel LLLProofs EMModel SpecEM EMProofs PropEM CircleProofs RealSum
  ToroidalModel SpecToroidal ToroidalProofs SpecHarmonic HarmonicProofs RepairModel ComplexBase PPCAModel SpecPPCA PPCAProofs PropPPCA
  ClassMapModel SpecClassMap ClassMapProofs ComplexProjModel SpecComplexProj ComplexProjProofs.
Import ListNotations.
Local Open Scope R_scope.

(** ** Sums over triangles *)
Lemma rank3 i j k : rank [i; j; k] = (rank [i; j] + comb k 3)%nat.
Proof. change [i; j; k] with ([i; j] ++ [k]). rewrite rank_snoc. reflexivity. Qed.
Lemma sum_ranks3 n F : sumn (comb n 3) F = sumn n (fun k => sumn k (fun j => sumn j (fun i => F (rank [i; j; k])))).
Proof.
  induction n as [|n IH]; [reflexivity|]. rewrite comb_S, Nat.add_comm, sumn_split, IH. cbn [sumn]. f_equal.
  rewrite sum_ranks. apply sumn_ext; intros j _; apply sumn_ext; intros i _. rewrite rank3. f_equal; lia.
Qed.
(** A vector with given values on the edges. *)
Fixpoint edge_vector (F : nat -> nat -> R) (n : nat) : list R :=
  match n with O => [] | S n => edge_vector F n ++ map (fun i => F i n) (seq 0 n) end.
Lemma edge_vector_length F n : length (edge_vector F n) = comb n 2.
Proof. induction n as [|n IH]; [reflexivity|]. cbn [edge_vector]. rewrite app_length, IH, map_length, seq_length, comb_S, comb_1. lia. Qed.
Lemma edge_vector_nth F n i j : (i < j < n)%nat -> nth (rank [i; j]) (edge_vector F n) 0 = F i j.
Proof.
  induction n as [|n IH]; intros H; [lia|]. cbn [edge_vector]. destruct (Nat.eq_dec j n) as [->|Ne].
  - rewrite app_nth2; rewrite edge_vector_length, rank2; [|lia]. replace (i + comb n 2 - comb n 2)%nat with i by lia.
    rewrite (nth_indep _ 0 (F 0%nat n)) by (rewrite map_length, seq_length; lia). rewrite (map_nth (fun i => F i n)), seq_nth by lia. reflexivity.
  - rewrite app_nth1; [apply IH; lia|]. rewrite edge_vector_length. apply (rank_lt_d n 1). apply simplex2; lia.
Qed.

Section Triangles.
Variables (dm : list (list R)) (t : R) (N Dm : nat).
Hypothesis Hsq : square dm.
Notation n := (length dm).
Hypothesis HN : (n <= N)%nat.
Hypothesis HD : (2 <= Dm)%nat.
Notation T := (combinatorial_number_system_table N Dm).
Definition ripsb (i j k : nat) : bool := (closeb Rltb dm t i j && closeb Rltb dm t i k && closeb Rltb dm t j k)%bool.
Lemma ripsb_rips i j k : (i < j < k)%nat -> (k < n)%nat -> (ripsb i j k = true <-> rips Rltb dm t 2 [i; j; k]).
Proof.
  intros H Hk. unfold ripsb. rewrite !andb_true_iff, !closeb_close. split.
  - intros ((A & B) & D). split; [apply simplex3; lia|]. repeat constructor; assumption.
  - intros (_ & F). inversion F as [|? ? F1 F2]; subst. inversion F1 as [|? ? G1 G2]; subst. inversion G2 as [|? ? G3 _]; subst.
    inversion F2 as [|? ? F3 _]; subst. inversion F3; subst. tauto.
Qed.
Lemma triangle_sum_ripsb F : triangle_sum dm t F = sumn n (fun k => sumn k (fun j => sumn j (fun i => if ripsb i j k then F i j k else 0))).
Proof.
  unfold triangle_sum; apply sumn_ext; intros k Hk; apply sumn_ext; intros j Hj; apply sumn_ext; intros i Hi. unfold ripsb.
  rewrite <- !(close_dec dm t N Dm Hsq HN ltac:(lia)) by lia. destruct (Rlt_dec (at2 t dm i j) t), (Rlt_dec (at2 t dm i k) t), (Rlt_dec (at2 t dm j k) t); reflexivity.
Qed.

Lemma best_integral_ok lsqr junk M (vec : list Z) : least_squares lsqr -> (Z.of_nat n <= 2345)%Z -> length vec = comb n 3 ->
  make_delta1 Rltb junk dm t T = Ok M -> best_integral dm t (alt3 vec) (alt2 (lsqr M (map IZR vec))).
Proof.
  intros HL Hb Lv EM. pose proof EM as EM'. rewrite (delta1_ok Rltb junk dm t N Dm Hsq HN HD (tri_fit _ Hb)) in EM'. injection EM' as EM'.
  assert (RM : s_rows M = comb n 3) by (rewrite <- EM'; reflexivity). assert (CM : s_cols M = comb n 2) by (rewrite <- EM'; reflexivity).
  set (cr := map IZR vec). assert (Lcr : length cr = comb n 3) by (unfold cr; rewrite map_length; exact Lv).
  assert (Hcr : forall r, nth r cr 0 = IZR (nth r vec 0%Z)) by (intros r; unfold cr; change 0 with (IZR 0%Z); apply map_nth).
  destruct (HL M cr ltac:(congruence)) as [Lg Hmin]. set (g := lsqr M cr) in *. rewrite CM in Lg.
  split; [intros; apply alt2_swap|]. intros nu'. set (y := edge_vector nu' n).
  assert (Ly : length y = comb n 2) by apply edge_vector_length.
  assert (App : forall z : list R, length z = comb n 2 -> exists d, matvec (K := Rring) M z = Ok d /\ length d = comb n 3 /\
    forall i j k, (i < j < k)%nat -> (k < n)%nat -> nth (rank [i; j; k]) d 0 =
      if ripsb i j k then nth (rank [i; j]) z 0 + nth (rank [j; k]) z 0 - nth (rank [i; k]) z 0 else 0).
  { intros z Lz. destruct (delta1_apply Rltb dm t N Dm HN Rring M z (eq_sym EM') HD Lz) as (d & Ed & Ld & Hd).
    exists d. split; [exact Ed|]. split; [exact Ld|]. intros i j k H Hk.
    assert (Sx : simplex n 2 [i; j; k]) by (apply simplex3; lia). destruct (tri_faces _ _ _ _ Sx) as (S1 & S2 & S3).
    assert (VA : forall a b, simplex n 1 [a; b] -> value_at T z [a; b] (nth (rank [a; b]) z 0)).
    { intros a b Sab. apply (value_at_rank dm N Dm HN z 1); [lia|exact Sab|]. pose proof (rank_lt_d _ _ _ Sab). apply nth_error_nth'. lia. }
    destruct (Hd i j k _ _ _ Sx (VA _ _ S1) (VA _ _ S2) (VA _ _ S3)) as [HR HR'].
    destruct (ripsb i j k) eqn:Q.
    - apply (ripsb_rips i j k H Hk) in Q. specialize (HR Q). apply (value_at_rank dm N Dm HN d 2) in HR; [|lia|exact Sx]. etransitivity; [exact (nth_error_nth _ _ 0 HR)|reflexivity].
    - assert (Q' : ~ rips Rltb dm t 2 [i; j; k]) by (intros Q'; apply (ripsb_rips i j k H Hk) in Q'; congruence).
      specialize (HR' Q'). apply (value_at_rank dm N Dm HN d 2) in HR'; [|lia|exact Sx]. etransitivity; [exact (nth_error_nth _ _ 0 HR')|reflexivity]. }
  destruct (App g Lg) as (u & Eu & Lu & Hu). destruct (App y Ly) as (v & Ev & Lv' & Hv).
  specialize (Hmin y u v (eq_trans Ly (eq_sym CM)) Eu Ev). rewrite Lcr in Hmin.
  set (K := sumn n (fun k => sumn k (fun j => sumn j (fun i => if ripsb i j k then 0 else IZR (alt3 vec i j k) ^ 2)))).
  assert (Nm : forall (z d : list R) (q : nat -> nat -> R), length d = comb n 3 -> (forall i j, (i < j < n)%nat -> nth (rank [i; j]) z 0 = q i j) ->
     (forall i j k, (i < j < k)%nat -> (k < n)%nat -> nth (rank [i; j; k]) d 0 =
       if ripsb i j k then nth (rank [i; j]) z 0 + nth (rank [j; k]) z 0 - nth (rank [i; k]) z 0 else 0) ->
     inner (comb n 3) (vsub cr d) (vsub cr d) = triangle_sum dm t (fun i j k => (IZR (alt3 vec i j k) - (q i j + q j k - q i k)) ^ 2) + K).
  { intros z d q Ld Hq Hd. unfold inner. rewrite sum_ranks3, triangle_sum_ripsb. unfold K.
    rewrite <- sumn_add; apply sumn_ext; intros k Hk; rewrite <- sumn_add; apply sumn_ext; intros j Hj; rewrite <- sumn_add; apply sumn_ext; intros i Hi.
    rewrite !nth_vsub by congruence. rewrite Hcr, alt3_sorted, Hd by lia. rewrite !Hq by lia. destruct (ripsb i j k); ring. }
  rewrite (Nm g u (alt2 g) Lu) in Hmin; [|intros; rewrite alt2_sorted by lia; reflexivity|exact Hu].
  rewrite (Nm y v nu' Lv') in Hmin; [|intros; apply edge_vector_nth; lia|exact Hv]. lra.
Qed.
End Triangles.

(** ** The stored lift *)
Lemma lift_class e n N d k birth death c : em_consistent e n N d -> em_class e d k birth death c ->
  exists store, lift_stored (Z.of_nat d) k e = Ok (set_cocycles e store) /\ class_lifted (em_prime e) d k (em_cocycles e) store.
Proof.
  intros Hc Hk. destruct (ec_classes _ _ _ _ Hc) as (dgm & cs & E1 & E2 & L & F). apply em_class_ok in Hk. unfold get_representative_cocycle in Hk. destruct k as [z|]; [|discriminate].
  rewrite (np_get_nat _ _ _ E1), (np_get_nat _ _ _ E2) in Hk. cbn [bind] in Hk. destruct (np_get dgm z); cbn [bind] in Hk; [|discriminate].
  destruct (np_get cs z) as [c'|] eqn:E; cbn [bind] in Hk; [|discriminate]. clear Hk.
  pose proof E as E'. rewrite np_get_pos in E'. destruct (ToroidalProofs.pos (length cs) z) as [i|] eqn:Ep; [|discriminate].
  pose proof (pos_lt _ _ _ Ep) as Hi.
  destruct (set_at_ok IndexError cs i (lift_to_integer_cocycle (em_prime e) c') Hi) as (cs1 & S1 & L1 & N1 & O1 & _).
  pose proof (some_lt _ _ _ E2) as H1. destruct (set_at_ok IndexError (em_cocycles e) d cs1 H1) as (st1 & S2 & L2 & N2 & O2 & _).
  exists st1. split.
  - unfold lift_stored. rewrite (np_get_nat _ _ _ E2); cbn [bind]. rewrite E; cbn [bind]. rewrite np_set_pos, Ep, S1; cbn [bind]. rewrite np_set_pos.
    unfold ToroidalProofs.pos. rewrite (proj2 (Z.leb_le 0 (Z.of_nat d))) by lia. rewrite (proj2 (Z.ltb_lt (Z.of_nat d) (Z.of_nat (length (em_cocycles e))))) by lia.
    cbn [andb]. rewrite Nat2Z.id, S2. reflexivity.
  - exists z, cs, cs1, i, c'. split; [reflexivity|]. split; [exact E2|]. split; [exact N2|]. split; [intros d' Hd'; apply O2; exact Hd'|]. split.
    + unfold ToroidalProofs.pos in Ep. destruct (_ && _)%bool eqn:Q1; [injection Ep as <-; apply andb_true_iff in Q1; left; lia|].
      destruct (_ && _)%bool eqn:Q2 in Ep; [injection Ep as <-; apply andb_true_iff in Q2; right; lia|discriminate].
    + split; [|split; [eexists; split; [exact N1|apply integer_lift_ok; reflexivity]|exact O1]]. unfold get in E'. destruct (nth_error cs i) as [x|] eqn:Ex; [|discriminate]. injection E' as ->. reflexivity.
Qed.

(** ** Rows of the class map *)
Lemma cscale_cis_0 x : (x, 0) = cscale x (cis 0).
Proof. rewrite cis_0. unfold cscale, c1; cbn [fst snd]. f_equal; ring. Qed.
Definition any_class_map (e : em) (r : R) (f : R -> R -> R) (n N : nat) (ph : nat -> nat -> R) : list (list (option C)) :=
  mk2 N n (fun b i => match unity_weight (em_dist_land_data e) r f i b with Some w => Some (cscale (sqrt w) (cis (ph b i))) | None => None end).
Lemma weights_any e r f n N : weights_class_map e r f n N = any_class_map e r f n N (fun _ _ => 0).
Proof. unfold weights_class_map, any_class_map. apply mk2_ext. intros b i _ _. destruct (unity_weight _ _ _ _ _); [rewrite cscale_cis_0|]; reflexivity. Qed.
Lemma any_rows e r f n N ph : matrix n N (em_dist_land_data e) -> (1 <= n)%nat ->
  (forall i b d, entry (em_dist_land_data e) i b d -> 0 <= d) -> (forall d, 0 <= d < r -> 0 < f d r) ->
  forall b, (b < N)%nat ->
  ((exists i, in_ball (em_dist_land_data e) r i b) -> unit_point (nth b (any_class_map e r f n N ph) [])) /\
  ((forall i, ~ in_ball (em_dist_land_data e) r i b) -> nan_point (nth b (any_class_map e r f n N ph) [])).
Proof.
  intros HM Hn Hp Hf b Hb. destruct (partition_facts e r f n N HM Hn Hp Hf) as (_ & _ & _ & W). destruct (W b Hb) as [W1 W2].
  unfold any_class_map. rewrite (nth_error_nth _ _ [] (mk2_row N n _ b Hb)). split.
  - intros Hc. destruct (W1 Hc) as (w & S & Hw).
    rewrite (map_ext_in _ (fun t => Some (cscale (sqrt (w t)) (cis (ph b t))))).
    + apply unit_row; [exact S|intros t Ht; apply Hw; exact Ht|intros; apply cabs2_cis].
    + intros t Ht. apply in_seq in Ht. destruct (Hw t ltac:(lia)) as (E & _). unfold weight in E. rewrite E; reflexivity.
  - intros Hc. apply Forall_map, Forall_forall. intros t Ht. apply in_seq in Ht. specialize (W2 Hc t ltac:(lia)). unfold weight in W2. rewrite W2; reflexivity.
Qed.
Lemma phase_change e r f n N a nu ball ball' :
  matrix n N (em_dist_land_data e) -> (1 <= n)%nat ->
  (forall i b d, entry (em_dist_land_data e) i b d -> 0 <= d) -> (forall d, 0 <= d < r -> 0 < f d r) ->
  (forall i j, nu j i = - nu i j) -> (forall i j k, a j i k = - a i j k)%Z -> (forall i j k, a i k j = - a i j k)%Z ->
  (forall b i j k l, in_ball (em_dist_land_data e) r i b -> in_ball (em_dist_land_data e) r j b ->
     in_ball (em_dist_land_data e) r k b -> in_ball (em_dist_land_data e) r l b -> (a j k l - a i k l + a i j l - a i j k = 0)%Z) ->
  covering_choice e r n N ball -> covering_choice e r n N ball' ->
  phase_class_map e r f n N a nu ball' =
  scale_rows (map (fun b => cis (2 * PI * mean_phase e r f n a nu (ball' b) b (ball b))) (seq 0 N)) (phase_class_map e r f n N a nu ball).
Proof.
  intros HM Hn Hp Hf Hnu A1 A2 T Cb Cb'. unfold phase_class_map. rewrite scale_mk2. apply mk2_ext. intros b i Hb Hi.
  destruct (partition_facts e r f n N HM Hn Hp Hf) as (_ & _ & _ & W). destruct (W b Hb) as [W1 W2].
  destruct (in_ball_dec e n N r b HM) as [[i0 Hi0]|H].
  - destruct (W1 (ex_intro _ i0 Hi0)) as (w & Sw & Hw). destruct (Hw i Hi) as (E & P & Q). unfold weight in E. rewrite E. cbn [option_map]. f_equal.
    destruct (Cb b Hb) as [_ K]. destruct (Cb' b Hb) as [_ K']. specialize (K (ex_intro _ i0 Hi0)). specialize (K' (ex_intro _ i0 Hi0)).
    destruct (Req_dec (w i) 0) as [Z|Z]; [rewrite Z, sqrt_0; csolve|].
    assert (B : in_ball (em_dist_land_data e) r i b) by (apply Q; lra).
    assert (Eph : mean_phase e r f n a nu (ball' b) b i = mean_phase e r f n a nu (ball' b) b (ball b) + mean_phase e r f n a nu (ball b) b i + IZR (a (ball b) i (ball' b))).
    { unfold mean_phase. rewrite <- (Rmult_1_r (IZR (a (ball b) i (ball' b)))), <- Sw, <- sumn_scal, <- !sumn_add. apply sumn_ext. intros t Ht.
      unfold weight0. destruct (Hw t Ht) as (Et & Pt & Qt). unfold weight in Et. rewrite Et.
      destruct (Req_dec (w t) 0) as [Z0|Z0]; [rewrite Z0; ring|]. assert (Bt : in_ball (em_dist_land_data e) r t b) by (apply Qt; lra).
      pose proof (T b i (ball b) (ball' b) t B K K' Bt) as Tz.
      pose proof (A1 i (ball b) (ball' b)) as Q1. 
      assert (Tr : IZR (a (ball b) (ball' b) t) - IZR (a i (ball' b) t) + IZR (a i (ball b) t) - IZR (a i (ball b) (ball' b)) = 0) by (rewrite <- minus_IZR, <- plus_IZR, <- minus_IZR; f_equal; exact Tz).
      rewrite Q1, opp_IZR. replace (IZR (a i (ball' b) t)) with (IZR (a (ball b) (ball' b) t) + IZR (a i (ball b) t) - IZR (a i (ball b) (ball' b))) by lra. ring. }
    rewrite Eph. replace (2 * PI * (mean_phase e r f n a nu (ball' b) b (ball b) + mean_phase e r f n a nu (ball b) b i + IZR (a (ball b) i (ball' b))))
      with (2 * PI * mean_phase e r f n a nu (ball' b) b (ball b) + (2 * PI * mean_phase e r f n a nu (ball b) b i + 2 * PI * IZR (a (ball b) i (ball' b)))) by ring.
    rewrite !cis_add, cis_2PI. csolve.
  - specialize (W2 H i Hi). unfold weight in W2. rewrite W2. reflexivity.
Qed.

(** ** Values on triangles *)
Lemma lift_simplex n d p c : simplex_cocycle n d c -> simplex_cocycle n d (lift_to_integer_cocycle p c).
Proof.
  intros (A & B & D). split; [exact A|]. cbn [lift_to_integer_cocycle c_rows]. split.
  - apply Forall_map. exact B.
  - induction D as [|r l F D IH]; [constructor|]. cbn [map]. constructor; [|apply IH; inversion B; assumption]. apply Forall_map. exact F.
Qed.
Lemma alt3_values argsort N Dm n c vec : (n <= N)%nat -> (2 <= Dm)%nat -> (forall l, is_argsort Z.le 0%Z l (argsort l)) ->
  simplex_cocycle n 2 c -> sparse_cocycle_to_vector argsort c (combinatorial_number_system_table N Dm) n = Ok vec ->
  triangle_values c n (alt3 vec).
Proof.
  intros HN HD A (Hd & F & O) E.
  destruct (sparse_to_vector_ok argsort n 2 c N Dm HN HD Hd F A) as (vec' & E' & L & H). rewrite E in E'; injection E' as <-.
  split; [intros; apply alt3_swap1|]. split; [intros; apply alt3_swap2|].
  assert (Last : forall vs v s, In (vs, v) (c_rows c) -> Permutation (map Z.of_nat s) vs -> simplex n 2 s -> nth (rank s) vec 0%Z = (orientation vs * v)%Z).
  { intros vs v s I P Sx. destruct (H s Sx) as [H1 _]. apply in_split in I. destruct I as (pre & post & Ep).
    assert (Np : forall row, In row post -> ~ Permutation (map Z.of_nat s) (fst row)).
    { intros row Ir Q. rewrite Ep in O. clear -O Ir Q P. induction pre as [|x pre IH]; [|inversion O; subst; apply IH; assumption].
      cbn [app] in O. inversion O as [|? ? F0 _]; subst. rewrite Forall_forall in F0. apply (F0 row Ir). cbn [fst].
      eapply Permutation_trans; [apply Permutation_sym; exact P|exact Q]. }
    rewrite Z.mul_comm. apply nth_error_nth, (H1 pre vs v post Ep P Np). }
  split.
  - intros i j k v I. rewrite Forall_forall in F. destruct (F _ I) as (_ & ND & R). cbn [fst] in ND, R.
    inversion R as [|? ? R1 R']; subst. inversion R' as [|? ? R2 R'']; subst. inversion R'' as [|? ? R3 _]; subst.
    assert (N1 : i <> j) by (intros ->; inversion ND as [|? ? Q _]; apply Q; left; reflexivity).
    assert (N2 : i <> k) by (intros ->; inversion ND as [|? ? Q _]; apply Q; right; left; reflexivity).
    assert (N3 : j <> k) by (intros ->; inversion ND as [|? ? _ ND']; inversion ND' as [|? ? Q _]; apply Q; left; reflexivity).
    assert (S : forall a b d, (a < b < d)%nat -> (d < n)%nat -> Permutation [Z.of_nat a; Z.of_nat b; Z.of_nat d] [Z.of_nat i; Z.of_nat j; Z.of_nat k] ->
      alt3 vec a b d = (orientation [Z.of_nat i; Z.of_nat j; Z.of_nat k] * v)%Z).
    { intros a b d H1 H2 P. rewrite alt3_sorted by lia. apply (Last _ v [a; b; d] I P). apply simplex3; lia. }
    assert (Sw : forall x y z : Z, Permutation [x; y; z] [y; x; z] /\ Permutation [x; y; z] [x; z; y] /\ Permutation [x; y; z] [y; z; x] /\ Permutation [x; y; z] [z; x; y] /\ Permutation [x; y; z] [z; y; x]).
    { intros x y z. split; [apply perm_swap|]. split; [apply perm_skip, perm_swap|]. split; [eapply Permutation_trans; [apply perm_swap|apply perm_skip, perm_swap]|].
      split; [apply Permutation_sym; eapply Permutation_trans; [apply perm_swap|apply perm_skip, perm_swap]|]. change [z; y; x] with (rev [x; y; z]); apply Permutation_rev. }
    destruct (Nat.lt_ge_cases i j), (Nat.lt_ge_cases j k), (Nat.lt_ge_cases i k); try lia.
    + destruct (orientation3 (Z.of_nat i) (Z.of_nat j) (Z.of_nat k) ltac:(lia)) as (O1 & _). rewrite (S i j k), O1 by (try lia; apply Permutation_refl). lia.
    + destruct (orientation3 (Z.of_nat i) (Z.of_nat k) (Z.of_nat j) ltac:(lia)) as (_ & _ & _ & O1 & _). rewrite (alt3_swap2 vec i k j), (S i k j), O1 by (try lia; apply Sw). lia.
    + destruct (orientation3 (Z.of_nat k) (Z.of_nat i) (Z.of_nat j) ltac:(lia)) as (_ & O1 & _). rewrite (alt3_swap2 vec i k j), (alt3_swap1 vec k i j), (S k i j), O1 by (try lia; apply Sw). lia.
    + destruct (orientation3 (Z.of_nat j) (Z.of_nat i) (Z.of_nat k) ltac:(lia)) as (_ & _ & _ & _ & O1 & _). rewrite (alt3_swap1 vec j i k), (S j i k), O1 by (try lia; apply Sw). lia.
    + destruct (orientation3 (Z.of_nat j) (Z.of_nat k) (Z.of_nat i) ltac:(lia)) as (_ & _ & O1 & _). rewrite (alt3_swap1 vec j i k), (alt3_swap2 vec j k i), (S j k i), O1 by (try lia; apply Sw). lia.
    + destruct (orientation3 (Z.of_nat k) (Z.of_nat j) (Z.of_nat i) ltac:(lia)) as (_ & _ & _ & _ & _ & O1). rewrite (alt3_swap1 vec j i k), (alt3_swap2 vec j k i), (alt3_swap1 vec k j i), (S k j i), O1 by (try lia; apply Sw). lia.
  - assert (S : forall i j k, (i < j < k)%nat -> (k < n)%nat -> (forall vs v, In (vs, v) (c_rows c) -> ~ Permutation [Z.of_nat i; Z.of_nat j; Z.of_nat k] vs) -> alt3 vec i j k = 0%Z).
    { intros i j k H1 H2 Hn. rewrite alt3_sorted by lia. destruct (H [i; j; k] ltac:(apply simplex3; lia)) as [_ H3]. apply nth_error_nth, H3. intros [vs v] I. apply (Hn vs v I). }
    assert (Sw : forall i j k i' j' k', Permutation [Z.of_nat i'; Z.of_nat j'; Z.of_nat k'] [Z.of_nat i; Z.of_nat j; Z.of_nat k] ->
      (forall vs v, In (vs, v) (c_rows c) -> ~ Permutation [Z.of_nat i; Z.of_nat j; Z.of_nat k] vs) -> (forall vs v, In (vs, v) (c_rows c) -> ~ Permutation [Z.of_nat i'; Z.of_nat j'; Z.of_nat k'] vs)).
    { intros i j k i' j' k' P Hn vs v I Q. apply (Hn vs v I). eapply Permutation_trans; [apply Permutation_sym; exact P|exact Q]. }
    assert (Pm : forall x y z : Z, Permutation [x; y; z] [y; x; z] /\ Permutation [x; y; z] [x; z; y] /\ Permutation [x; y; z] [y; z; x] /\ Permutation [x; y; z] [z; x; y] /\ Permutation [x; y; z] [z; y; x]).
    { intros x y z. split; [apply perm_swap|]. split; [apply perm_skip, perm_swap|]. split; [eapply Permutation_trans; [apply perm_swap|apply perm_skip, perm_swap]|].
      split; [apply Permutation_sym; eapply Permutation_trans; [apply perm_swap|apply perm_skip, perm_swap]|]. change [z; y; x] with (rev [x; y; z]); apply Permutation_rev. }
    intros i j k Hi Hj Hk Hn.
    destruct (Nat.eq_dec i j) as [->|Q1]; [apply alt3_repeat; lia|]. destruct (Nat.eq_dec j k) as [->|Q2]; [apply alt3_repeat; lia|].
    destruct (Nat.eq_dec i k) as [->|Q3]; [apply alt3_repeat; lia|].
    destruct (Nat.lt_ge_cases i j), (Nat.lt_ge_cases j k), (Nat.lt_ge_cases i k); try lia.
    + apply S; try lia; exact Hn.
    + rewrite (alt3_swap2 vec i k j), (S i k j); try lia. eapply Sw; [|exact Hn]; apply Pm.
    + rewrite (alt3_swap2 vec i k j), (alt3_swap1 vec k i j), (S k i j); try lia. eapply Sw; [|exact Hn]; apply Pm.
    + rewrite (alt3_swap1 vec j i k), (S j i k); try lia. eapply Sw; [|exact Hn]; apply Pm.
    + rewrite (alt3_swap1 vec j i k), (alt3_swap2 vec j k i), (S j k i); try lia. eapply Sw; [|exact Hn]; apply Pm.
    + rewrite (alt3_swap1 vec j i k), (alt3_swap2 vec j k i), (alt3_swap1 vec k j i), (S k j i); try lia. eapply Sw; [|exact Hn]; apply Pm.
Qed.

(** The cocycle condition of the dense vector. *)
Lemma two_cocycle_iff dm t N Dm vec a : square dm -> (length dm <= N)%nat -> (3 <= Dm)%nat -> length vec = comb (length dm) 3 ->
  (forall i j k, (i < length dm)%nat -> (j < length dm)%nat -> (k < length dm)%nat -> a i j k = alt3 vec i j k) ->
  (tetrahedra_cocycle dm (length dm) t a <-> two_cocycle Rltb dm t (combinatorial_number_system_table N Dm) vec).
Proof.
  intros Hsq HN HD Lv Ha.
  assert (VA : forall i j k x, simplex (length dm) 2 [i; j; k] -> (value_at (combinatorial_number_system_table N Dm) vec [i; j; k] x <-> x = alt3 vec i j k)).
  { intros i j k x Sx. rewrite (value_at_rank dm N Dm HN vec 2) by (lia || exact Sx). pose proof (rank_lt_d _ _ _ Sx). apply simplex3 in Sx. rewrite alt3_sorted by lia.
    rewrite (nth_error_nth' vec 0%Z) by lia. split; [intros Q; injection Q as <-; reflexivity|intros ->; reflexivity]. }
  assert (Close : forall u v, (u < length dm)%nat -> (v < length dm)%nat -> ((forall x, entry dm u v x -> x < t) <-> close Rltb dm t u v)).
  { intros u v Hu Hv. split.
    - intros Hx. destruct (nth_error dm u) as [row|] eqn:E1; [|apply nth_error_None in E1; lia].
      unfold square in Hsq. rewrite Forall_forall in Hsq. pose proof (Hsq row (nth_error_In _ _ E1)) as Lr.
      destruct (nth_error row v) as [x|] eqn:E2; [|apply nth_error_None in E2; lia]. exists row, x. split; [exact E1|]. split; [exact E2|]. apply Rltb_true, Hx. exists row; split; assumption.
    - intros (row & x & E1 & E2 & L) y (row' & F1 & F2). rewrite E1 in F1; injection F1 as <-. rewrite E2 in F2; injection F2 as <-. apply Rltb_true, L. }
  split.
  - intros H i j k l x1 x2 x3 x4 [Sx Fp] V1 V2 V3 V4. destruct (tet_faces _ _ _ _ _ Sx) as (S1 & S2 & S3 & S4). apply simplex4 in Sx.
    apply VA in V1; [|apply simplex3; lia]. apply VA in V2; [|apply simplex3; lia]. apply VA in V3; [|apply simplex3; lia]. apply VA in V4; [|apply simplex3; lia]. subst.
    rewrite <- !Ha by lia. pose proof (H i j k l ltac:(lia) ltac:(lia)) as Q. enough (a j k l - a i k l + a i j l - a i j k = 0)%Z by lia. apply Q.
    intros u v x Iu Iv Huv Ex. revert x Ex. apply Close.
    + cbn [In] in Iu. intuition lia.
    + cbn [In] in Iv. intuition lia.
    + inversion Fp as [|? ? P1 Fp1]; subst. inversion Fp1 as [|? ? P2 Fp2]; subst. inversion Fp2 as [|? ? P3 Fp3]; subst.
      rewrite Forall_forall in P1, P2, P3. cbn [In] in Iu, Iv.
      destruct Iu as [<-|[<-|[<-|[<-|[]]]]]; destruct Iv as [<-|[<-|[<-|[<-|[]]]]]; try lia; (apply P1; cbn [In]; tauto) || (apply P2; cbn [In]; tauto) || (apply P3; cbn [In]; tauto).
  - intros H i j k l H1 H2 Hd. rewrite !Ha by lia.
    assert (Rp : rips Rltb dm t 3 [i; j; k; l]).
    { split; [apply simplex4; lia|]. repeat constructor; apply Close; try lia; intros x Ex; eapply Hd; try exact Ex; try lia; cbn [In]; tauto. }
    assert (V : forall u v w, simplex (length dm) 2 [u; v; w] -> value_at (combinatorial_number_system_table N Dm) vec [u; v; w] (alt3 vec u v w)) by (intros u v w Sx; apply VA; [exact Sx|reflexivity]).
    pose proof (H i j k l _ _ _ _ Rp (V i j k ltac:(apply simplex3; lia)) (V i j l ltac:(apply simplex3; lia)) (V i k l ltac:(apply simplex3; lia)) (V j k l ltac:(apply simplex3; lia))). lia.
Qed.
