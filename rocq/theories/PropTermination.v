(** PropTermination.v -- C86: when ToroidalCoords.get_coordinates returns for several classes. *)
From Coq Require Import Sorted Permutation Relations QArith Qreals Lia Lra.
From Verif Require Import Base BaseProofs CombinatorialModel SpecSimplex CombinatorialProofs Argsort
  DeltaModel SpecRips RipsProofs DeltaProofs DeltaFacts RealBase RealSum SpecRepair RepairModel RepairProofs
  EMModel SpecEM EMProofs CircleModel SpecCircle CircleProofs LLLModel SpecLLL LLLProofs LLLExecution LLLTwins
  CohomologyModel SpecCohomology CohomologyProofs PropDelta PropRepair PropCohomology PropEM PropCircle PropLLL
  ToroidalModel SpecToroidal ToroidalProofs ToroidalFacts ToroidalCalls SpecHarmonic HarmonicProofs ToroidalTotal
  PropHarmonic LeastSquares Cholesky SpecTermination ToroidalSeveral PropTheta.
Local Open Scope R_scope.

(** C86: for two or three classes the call returns, after some number of turns of the lattice
    reduction, if the classes are linearly independent in real cohomology; for any number of
    dependent classes (for instance an index given twice) it raises LinAlgError. *)
Theorem C86_up_to_three_classes :
  forall ext x n N perc idxs lifts f (sr check : bool) birth death,
  consistent x n N -> field_valued x ->
  sound_numpy ext -> least_squares (x_lsqr ext) -> sound_cholesky ext -> exact_cholesky ext -> (forall r, bump f r) ->
  selected x idxs lifts birth death -> birth < death ->
  let start := if sr then 2 * birth else birth in
  start <= death ->
  let t := (1 - perc) * start + perc * death in
  let dm := em_dist_land_land (t_em x) in
  (check = true -> Forall (fun l => cocycle_on dm t (fun v => v = 0%Z) (sparse_edge l)) lifts) ->
  (2 <= length idxs)%nat ->
  let call turns := snd (get_coordinates (with_turns ext turns) x perc idxs f sr check) in
  (~ independent_cochains dm t lifts -> forall turns, call turns = Raise LinAlgError) /\
  (independent_cochains dm t lifts -> (length idxs <= 3)%nat ->
     exists enough rows, forall turns, (enough <= turns)%nat -> call turns = Ok rows).
Proof.
  intros ext x n N perc idxs lifts f sr check birth death C FV HE HL HC HX Hf Hsel Hbd start Hst t dm Hch Hk call.
  destruct (several x n N ext f perc birth death sr check idxs lifts C FV HE HL Hf Hsel Hbd Hst Hch Hk) as (A & gm & hs & gs & Mg & LA & Ecall & Hg & Hh & Ho).
  fold start t dm in Ecall, Hg, Hh, Ho.
  destruct (gram_independent x n N perc birth death sr idxs lifts C Hsel Hk gm hs gs Hg Hh Ho) as [Sy Ind]. fold start t dm in Ind.
  destruct (HX _ gm Mg Sy) as [X1 X2]. split.
  - intros NI turns. unfold call. rewrite Ecall. unfold reduce_circular_coordinates. rewrite X2 by (intros P; apply NI, Ind, P). reflexivity.
  - intros I H3. destruct (X1 (proj2 Ind I)) as (L & EL). destruct (HC _ gm L Mg EL) as [ML HL']. destruct (HL' Sy) as (Tri & Dia & _).
    assert (IL : independent (length idxs) L) by (apply triangular_independent; [exact Tri|intros i Hi; specialize (Dia i Hi); lra]).
    assert (Ell : exists turns B' change, forall more, lll (turns + more) L = Ok (B', change)).
    { assert (H : length idxs = 2%nat \/ length idxs = 3%nat) by lia. destruct H as [H|H]; rewrite H in ML, IL.
      - destruct (C41_two_classes L ML IL) as (turns & c0 & c1 & change & E & _). eauto.
      - destruct (C42_three_classes L ML IL) as (turns & B' & change & E & _). eauto. }
    destruct Ell as (turns & B' & change & El).
    destruct (reduce_returns (length idxs) A gm L (x_cholesky ext) turns B' change ltac:(lia) LA ML EL El) as (rows & Er).
    exists turns, rows. intros turns' Ht. unfold call. rewrite Ecall. replace turns' with (turns + (turns' - turns))%nat by lia. rewrite Er. reflexivity.
Qed.
Print Assumptions C86_up_to_three_classes.

(** The contracts of the four external functions can be met. *)
Definition exact_ext (turns : nat) : externals := mkExt argsort_Z (fun _ _ => None) lsq exact_chol (fun _ => 7%Z) turns.
Lemma exact_ext_ok turns : sound_numpy (exact_ext turns) /\ least_squares (x_lsqr (exact_ext turns)) /\ sound_cholesky (exact_ext turns) /\ exact_cholesky (exact_ext turns).
Proof.
  split; [exact theta_numpy|]. split; [exact theta_lsqr|]. split; [apply exact_chol_sound; reflexivity|apply exact_chol_exact; reflexivity].
Qed.

(** The two loops of theta are independent; the first loop given twice is not. *)
Example C86_nonvacuous :
  consistent theta 5 5 /\ field_valued theta /\ (forall turns, sound_numpy (exact_ext turns) /\ least_squares (x_lsqr (exact_ext turns)) /\ sound_cholesky (exact_ext turns) /\ exact_cholesky (exact_ext turns)) /\
  selected theta [PyInt 0; PyInt 1] lifted 1 2 /\ independent_cochains theta_dm (3 / 2) lifted /\
  (let l := lift_to_integer_cocycle 41 loop1 in selected theta [PyInt 0; PyInt 0] [l; l] 1 2 /\ ~ independent_cochains theta_dm (3 / 2) [l; l]).
Proof.
  assert (S : forall q c, class_of theta q 1 2 c -> exists b d c0, class_of theta q b d c0 /\ integer_lift (em_prime (t_em theta)) c0 (lift_to_integer_cocycle 41 c) /\ b <= 1 /\ 2 <= d).
  { intros q c H. exists 1, 2, c. split; [exact H|]. split; [apply integer_lift_ok; reflexivity|lra]. }
  assert (C0 : class_of theta (PyInt 0) 1 2 loop1) by (apply em_class1; reflexivity).
  assert (C1 : class_of theta (PyInt 1) 1 2 loop2) by (apply em_class1; reflexivity).
  split; [apply theta_consistent|]. split; [apply theta_field|]. split; [apply exact_ext_ok|].
  split; [split; [repeat constructor; apply S; assumption|split; [exists (PyInt 0), 2, loop1|exists (PyInt 0), 1, loop1]; (split; [left; reflexivity|exact C0])]|].
  split; [|split; [split; [repeat constructor; apply S; assumption|split; [exists (PyInt 0), 2, loop1|exists (PyInt 0), 1, loop1]; (split; [left; reflexivity|exact C0])]|]].
  - intros a y H.
    assert (Q : forall i j, In (i, j) [(0, 2); (1, 2); (0, 4); (1, 4)]%nat -> (i < j < length theta_dm)%nat /\ close Rltb theta_dm (3 / 2) i j).
    { intros i j I. cbn [In] in I. repeat (destruct I as [I|I]; [injection I as <- <-; split; [cbn; lia|eexists; eexists; split; [reflexivity|split; [reflexivity|apply Rltb_true; lra]]]|]); contradiction. }
    pose proof (H 0%nat 2%nat (proj1 (Q 0%nat 2%nat ltac:(cbn; tauto))) (proj2 (Q 0%nat 2%nat ltac:(cbn; tauto)))) as H1.
    pose proof (H 1%nat 2%nat (proj1 (Q 1%nat 2%nat ltac:(cbn; tauto))) (proj2 (Q 1%nat 2%nat ltac:(cbn; tauto)))) as H2.
    pose proof (H 0%nat 4%nat (proj1 (Q 0%nat 4%nat ltac:(cbn; tauto))) (proj2 (Q 0%nat 4%nat ltac:(cbn; tauto)))) as H3.
    pose proof (H 1%nat 4%nat (proj1 (Q 1%nat 4%nat ltac:(cbn; tauto))) (proj2 (Q 1%nat 4%nat ltac:(cbn; tauto)))) as H4.
    assert (Q3 : forall i, (i < 2)%nat -> close Rltb theta_dm (3 / 2) i 3).
    { intros [|[|i]] Hi; [| |lia]; eexists; eexists; (split; [reflexivity|split; [reflexivity|apply Rltb_true; lra]]). }
    pose proof (H 0%nat 3%nat ltac:(cbn; lia) (Q3 0%nat ltac:(lia))) as H5. pose proof (H 1%nat 3%nat ltac:(cbn; lia) (Q3 1%nat ltac:(lia))) as H6.
    clear H Q Q3. cbn in H1, H2, H3, H4, H5, H6. intros h Hh. cbn in Hh. destruct h as [|[|h]]; [lra|lra|lia].
  - intros I. specialize (I (fun h => if (h =? 0)%nat then 1 else -1) (fun _ => 0)). assert (Z : (if (0 =? 0)%nat then 1 else -1) = 0); [|cbn in Z; lra].
    apply (I ltac:(intros i j _ _; cbn [length sumn nth_error Nat.eqb]; ring) 0%nat). cbn; lia.
Qed.

(** ** Five classes for which the call never returns *)

(** Eight landmarks: two of them are at distance 1 from the six others, all other distances are
    2.  Between scales 1 and 2 the Rips complex is a graph with five independent loops. *)
Definition six_dm : list (list R) :=
  [[0; 2; 1; 1; 1; 1; 1; 1]; [2; 0; 1; 1; 1; 1; 1; 1]; [1; 1; 0; 2; 2; 2; 2; 2]; [1; 1; 2; 0; 2; 2; 2; 2];
   [1; 1; 2; 2; 0; 2; 2; 2]; [1; 1; 2; 2; 2; 0; 2; 2]; [1; 1; 2; 2; 2; 2; 0; 2]; [1; 1; 2; 2; 2; 2; 2; 0]].
(** A class: values on the edges from the first of the two landmarks to the six others; the edges
    from the second one carry the opposite values. *)
Definition six_rows : list (list Z) :=
  [[-1; 4; -2; -1; 3; -3]; [3; 0; 0; -3; 3; -3]; [3; -1; 0; -3; -2; 3]; [4; -2; -1; 0; -2; 1]; [0; 1; 2; -1; 2; -4]]%Z.
Definition six_class (r : list Z) : cocycle :=
  mkCocycle 1 (concat (map (fun m => let a := nth m r 0%Z in
    [([0; 2 + Z.of_nat m], a mod 41); ([1; 2 + Z.of_nat m], (- a) mod 41)]%Z) (seq 0 6))).
Definition six_em : em :=
  mkEM 41 [[]; [(1, 2); (1, 2); (1, 2); (1, 2); (1, 2)]] [0; 1; 2; 3; 4; 5; 6; 7]%Z 8 six_dm 0 six_dm [[]; map six_class six_rows] None None.
Definition six : tor := mkTor six_em (combinatorial_number_system_table 8 2) None None None.
Definition six_idxs : list pyval := [PyInt 0; PyInt 1; PyInt 2; PyInt 3; PyInt 4].
Definition six_lifts : list cocycle := map (fun r => lift_to_integer_cocycle 41 (six_class r)) six_rows.

Lemma six_entry i j d : entry six_dm i j d -> (i < 8)%nat /\ (j < 8)%nat /\ d = at2 0 six_dm i j.
Proof.
  intros (row & E1 & E2). assert (Hi : (i < 8)%nat) by (apply (nth_error_Some six_dm); congruence).
  assert (Lr : length row = 8%nat).
  { pose proof (nth_error_In _ _ E1) as I. cbn [six_dm In] in I. repeat (destruct I as [<-|I]; [reflexivity|]); contradiction. }
  assert (Hj : (j < 8)%nat) by (rewrite <- Lr; apply nth_error_Some; congruence).
  split; [exact Hi|split; [exact Hj|]]. unfold at2. rewrite (nth_error_nth _ _ _ E1), (nth_error_nth _ _ _ E2); reflexivity.
Qed.
(** The distances: 0 on the diagonal, 1 between the two and the six. *)
Lemma six_at i j : (i < 8)%nat -> (j < 8)%nat ->
  at2 0 six_dm i j = if (i =? j)%nat then 0 else if xorb (i <? 2)%nat (j <? 2)%nat then 1 else 2.
Proof.
  intros Hi Hj. do 8 (destruct i as [|i]; [do 8 (destruct j as [|j]; [reflexivity|]); lia|]). lia.
Qed.
Lemma six_class_edge r : length r = 6%nat -> edge_cocycle 8 (six_class r).
Proof.
  intros L. do 6 (destruct r as [|? r]; [discriminate|]). destruct r; [|discriminate].
  repeat constructor; cbn; try lia; intuition lia.
Qed.
Lemma six_consistent : consistent six 8 8.
Proof.
  assert (M : matrix 8 8 six_dm) by (split; [reflexivity|repeat constructor]).
  constructor; cbn [six six_em t_em t_table em_n_landmarks em_dist_land_land em_dist_land_data em_prime em_dgms em_cocycles]; try assumption; try lia.
  - intros i b d H. apply six_entry in H as (Hi & Hb & ->). rewrite six_at by assumption. destruct (i =? b)%nat, (xorb (i <? 2)%nat (b <? 2)%nat); lra.
  - exists 8%nat; split; [lia|reflexivity].
  - exists [(1, 2); (1, 2); (1, 2); (1, 2); (1, 2)], (map six_class six_rows). do 3 (split; [reflexivity|]).
    apply Forall_map. repeat (apply Forall_cons; [apply six_class_edge; reflexivity|]). apply Forall_nil.
Qed.
Lemma six_metric : metric six.
Proof.
  split; cbn [six six_em t_em em_dist_land_land em_dist_land_data].
  - intros i j d H. apply six_entry in H as (Hi & Hj & ->).
    assert (G : forall i j, (i < 8)%nat -> (j < 8)%nat -> entry six_dm i j (at2 0 six_dm i j)).
    { clear. intros i j Hi Hj. exists (nth i six_dm []). split; [apply nth_error_nth', Hi|]. apply nth_error_nth'.
      do 8 (destruct i as [|i]; [exact Hj|]). lia. }
    assert (E : at2 0 six_dm i j = at2 0 six_dm j i); [|rewrite E; apply G; assumption].
    rewrite !six_at by assumption. rewrite (Nat.eqb_sym j i), (xorb_comm (j <? 2)%nat). reflexivity.
  - intros i j b d d1 d2 H H1 H2. apply six_entry in H as (Hi & Hj & ->). apply six_entry in H1 as (_ & Hb & ->). apply six_entry in H2 as (_ & _ & ->).
    rewrite !six_at by assumption.
    destruct (Nat.eqb_spec i j), (Nat.eqb_spec i b), (Nat.eqb_spec j b); try lia; subst;
      repeat match goal with |- context [(?u <? 2)%nat] => destruct (u <? 2)%nat end; cbn [xorb]; lra.
Qed.
Lemma six_field : field_valued six.
Proof.
  intros cs c row H1 H2 H3. cbn [six six_em t_em em_cocycles nth_error em_prime] in *. assert (E : cs = map six_class six_rows) by congruence. rewrite E in H2. apply in_map_iff in H2 as (r & <- & _).
  cbn [six_class c_rows] in H3. apply in_concat in H3 as (l & Hl & H3). apply in_map_iff in Hl as (m & <- & _).
  destruct H3 as [<-|[<-|[]]]; cbn [snd]; apply Z.mod_pos_bound; lia.
Qed.
Lemma six_edges F : edge_sum six_dm (3 / 2) F = sumn 6 (fun m => F 0%nat (2 + m)%nat + F 1%nat (2 + m)%nat).
Proof.
  unfold edge_sum, six_dm; cbn [length sumn]; unfold at2; cbn [nth].
  repeat match goal with |- context [Rlt_dec ?a ?b] => destruct (Rlt_dec a b) as [?H|?H]; [try (exfalso; lra)|try (exfalso; lra)] end.
  cbn [Nat.add]. ring.
Qed.
Lemma six_close i m : (i < 2)%nat -> (m < 6)%nat -> (i < 2 + m < 8)%nat /\ close Rltb six_dm (3 / 2) i (2 + m).
Proof.
  intros Hi Hm. split; [lia|]. exists (nth i six_dm []), 1. split; [apply nth_error_nth'; cbn; lia|]. split; [|apply Rltb_true; lra].
  do 2 (destruct i as [|i]; [do 6 (destruct m as [|m]; [reflexivity|]); lia|]). lia.
Qed.
Lemma six_no_triangle t i j k : t <= 2 -> ~ rips Rltb six_dm t 2 [i; j; k].
Proof.
  intros Ht [Sx Hd]. destruct Sx as (_ & Sx & _).
  assert (Q : forall i j, (i < j)%nat -> close Rltb six_dm t i j -> (i < 2 <= j)%nat).
  { intros i' j' H' (row & d & E1 & E2 & L'). apply Rltb_true in L'.
    destruct (six_entry i' j' d) as (Hi & Hj & ->); [exists row; auto|]. rewrite six_at in L' by assumption.
    destruct (Nat.eqb_spec i' j'); [lia|]. destruct (Nat.ltb_spec i' 2), (Nat.ltb_spec j' 2); cbn [xorb] in L'; try lia; lra. }
  inversion Hd as [|? ? F1 F2]; subst. inversion F2 as [|? ? F3 _]; subst. rewrite Forall_forall in F1, F3.
  inversion Sx as [|? ? S1 S2]; subst. inversion S1 as [|? ? S3 S4]; subst. rewrite Forall_forall in S2, S4.
  pose proof (Q i j (S2 j (or_introl eq_refl)) (F1 j (or_introl eq_refl))).
  pose proof (Q j k (S4 k (or_introl eq_refl)) (F3 k (or_introl eq_refl))). lia.
Qed.
Lemma six_selected : selected six six_idxs six_lifts 1 2.
Proof.
  assert (S : forall k c, em_class six_em 1 k 1 2 c -> exists b d c0, class_of six k b d c0 /\ integer_lift 41 c0 (lift_to_integer_cocycle 41 c) /\ b <= 1 /\ 2 <= d).
  { intros q c H. exists 1, 2, c. split; [exact H|]. split; [apply integer_lift_ok; reflexivity|lra]. }
  split; [|split].
  - unfold six_idxs, six_lifts, six_rows. cbn [map]. repeat constructor; apply S, em_class1; reflexivity.
  - exists (PyInt 0), 2. eexists. split; [left; reflexivity|]. apply em_class1; reflexivity.
  - exists (PyInt 0), 1. eexists. split; [left; reflexivity|]. apply em_class1; reflexivity.
Qed.
Notation six_eta h i j := (match nth_error six_lifts h with Some c => sparse_edge c i j | None => 0%Z end).
Definition six_row (h m : nat) : Z := nth m (nth h six_rows []) 0%Z.
Lemma six_eta_value h m : (h < 5)%nat -> (m < 6)%nat -> six_eta h 0%nat (2 + m)%nat = six_row h m /\ six_eta h 1%nat (2 + m)%nat = (- six_row h m)%Z.
Proof.
  intros Hh Hm. do 5 (destruct h as [|h]; [do 6 (destruct m as [|m]; [split; vm_compute; reflexivity|]); lia|]). lia.
Qed.
Lemma six_independent : independent_cochains six_dm (3 / 2) six_lifts.
Proof.
  intros a y H h Hh.
  assert (E : forall m, (m < 6)%nat -> sumn 5 (fun h => a h * IZR (six_row h m)) = y 0%nat - y (2 + m)%nat /\ - sumn 5 (fun h => a h * IZR (six_row h m)) = y 1%nat - y (2 + m)%nat).
  { intros m Hm. destruct (six_close 0 m ltac:(lia) Hm) as [A1 A2]. destruct (six_close 1 m ltac:(lia) Hm) as [B1 B2].
    pose proof (H _ _ A1 A2) as H1. pose proof (H _ _ B1 B2) as H2. change (length six_lifts) with 5%nat in H1, H2.
    split; [rewrite <- H1; apply sumn_ext; intros p Hp; destruct (six_eta_value p m Hp Hm) as [-> _]; reflexivity|].
    rewrite <- H2. replace (- sumn 5 (fun h => a h * IZR (six_row h m))) with (-1 * sumn 5 (fun h => a h * IZR (six_row h m))) by ring.
    rewrite <- sumn_scal. apply sumn_ext; intros p Hp. destruct (six_eta_value p m Hp Hm) as [_ ->]. rewrite opp_IZR. ring. }
  pose proof (E 0%nat ltac:(lia)). pose proof (E 1%nat ltac:(lia)). pose proof (E 2%nat ltac:(lia)).
  pose proof (E 3%nat ltac:(lia)). pose proof (E 4%nat ltac:(lia)). pose proof (E 5%nat ltac:(lia)). clear E H.
  unfold six_row, six_rows in *. cbn [sumn nth] in *. change (length six_lifts) with 5%nat in Hh.
  do 5 (destruct h as [|h]; [lra|]). lia.
Qed.

(** The run of the lattice reduction on the five rows. *)
Definition six_q : list (list Q) := map (map inject_Z) six_rows.
Lemma six_cycle : exists s0 s, qinit six_q = Some s0 /\ qturns 3 s0 = Some s /\ qturns 4 s = Some s /\
  (forall t, (t < 3)%nat -> exists u, qturns t s0 = Some u /\ (q_k u < length (q_B u))%nat) /\
  (forall t, (t < 4)%nat -> exists u, qturns t s = Some u /\ (q_k u < length (q_B u))%nat).
Proof.
  eexists; eexists. split; [vm_compute; reflexivity|]. split; [vm_compute; reflexivity|]. split; [vm_compute; reflexivity|].
  split; intros t Ht; do 4 (destruct t as [|t]; [eexists; split; [vm_compute; reflexivity|vm_compute; lia]|]); lia.
Qed.
Lemma six_forever fuel : lll fuel (RM six_q) = Raise LoopForever.
Proof.
  unfold lll. apply forever_loops. destruct six_cycle as (s0 & s & E0 & E1 & E2 & H0 & H1). rewrite (qinit_ok _ _ E0).
  assert (B : forall u, (q_k u < length (q_B u))%nat -> (l_k (RS u) < length (l_B (RS u)))%nat).
  { intros u Hu. cbn. unfold RM; rewrite map_length. exact Hu. }
  apply (later_forever _ 3).
  - intros t Ht. destruct (H0 t Ht) as (u & Eu & Hu). rewrite (qturns_ok _ _ _ Eu). apply B, Hu.
  - rewrite (qturns_ok _ _ _ E1). apply (periodic_forever _ 4); [lia|apply qturns_ok, E2|].
    intros t Ht. destruct (H1 t Ht) as (u & Eu & Hu). rewrite (qturns_ok _ _ _ Eu). apply B, Hu.
Qed.

(** The inner products of the harmonic representatives. *)
Lemma six_gram (hs : nat -> nat -> nat -> R) (gs : nat -> nat -> R) p q :
  (forall a i j, (a < 5)%nat -> (i < j < 8)%nat -> close Rltb six_dm (3 / 2) i j -> hs a i j = IZR (six_eta a i j) - (gs a i - gs a j)) ->
  (forall a, (a < 5)%nat -> forall y : nat -> R, edge_sum six_dm (3 / 2) (fun i j => hs a i j * (y i - y j)) = 0) ->
  (p < 5)%nat -> (q < 5)%nat ->
  edge_sum six_dm (3 / 2) (fun i j => hs p i j * hs q i j) = 2 * vdot (col (RM six_q) p) (col (RM six_q) q).
Proof.
  intros H1 H2 Hp Hq.
  assert (E : forall a m, (a < 5)%nat -> (m < 6)%nat -> hs a 0%nat (2 + m)%nat = IZR (six_row a m) - (gs a 0%nat - gs a (2 + m)%nat) /\
      hs a 1%nat (2 + m)%nat = - IZR (six_row a m) - (gs a 1%nat - gs a (2 + m)%nat)).
  { intros a m Ha Hm. destruct (six_close 0 m ltac:(lia) Hm) as [A1 A2]. destruct (six_close 1 m ltac:(lia) Hm) as [B1 B2].
    rewrite (H1 a _ _ Ha A1 A2), (H1 a _ _ Ha B1 B2). destruct (six_eta_value a m Ha Hm) as [-> ->]. rewrite opp_IZR. split; reflexivity. }
  assert (S0 : forall a, (a < 5)%nat -> sumn 6 (fun m => IZR (six_row a m)) = 0).
  { intros a Ha. do 5 (destruct a as [|a]; [unfold six_row, six_rows; cbn [sumn nth]; lra|]). lia. }
  pose proof (H2 p Hp (gs q)) as Z. rewrite six_edges in Z |- *.
  (* replace h_q by its cochain, then h_p by its cochain *)
  assert (Z1 : sumn 6 (fun m => hs p 0%nat (2 + m)%nat * hs q 0%nat (2 + m)%nat + hs p 1%nat (2 + m)%nat * hs q 1%nat (2 + m)%nat) =
    sumn 6 (fun m => IZR (six_row q m) * (hs p 0%nat (2 + m)%nat - hs p 1%nat (2 + m)%nat))).
  { rewrite <- (Rminus_0_r (sumn 6 (fun m => IZR (six_row q m) * _))), <- Z, <- sumn_sub. apply sumn_ext; intros m Hm. destruct (E q m Hq Hm) as [-> ->]. ring. }
  rewrite Z1.
  rewrite (sumn_ext 6 (fun m => IZR (six_row q m) * (hs p 0%nat (2 + m)%nat - hs p 1%nat (2 + m)%nat))
     (fun m => 2 * (IZR (six_row p m) * IZR (six_row q m)) + - (gs p 0%nat - gs p 1%nat) * IZR (six_row q m)))
     by (intros m Hm; destruct (E p m Hp Hm) as [-> ->]; ring).
  rewrite sumn_add, !sumn_scal, (S0 q Hq).
  enough (G : sumn 6 (fun m => IZR (six_row p m) * IZR (six_row q m)) = vdot (col (RM six_q) p) (col (RM six_q) q)) by (rewrite G; ring).
  do 5 (destruct p as [|p]; [do 5 (destruct q as [|q]; [unfold six_row, six_q, six_rows, vdot, col, RM, RV; cbn; unfold Q2R; cbn; lra|]); exfalso; clear - Hq; lia|]). exfalso; clear - Hp; lia.
Qed.

(** C86: with five independent classes the call may run forever: whatever number of turns the
    lattice reduction is allowed, it is not finished. *)
Theorem C86_five_classes_refuted :
  exists x n N idxs lifts birth death,
  consistent x n N /\ metric x /\ field_valued x /\ length idxs = 5%nat /\
  selected x idxs lifts birth death /\ 0 < birth < death /\
  let perc := 1 / 2 in let t := (1 - perc) * birth + perc * death in let dm := em_dist_land_land (t_em x) in
  Forall (fun l => cocycle_on dm death (fun v => v = 0%Z) (sparse_edge l)) lifts /\
  independent_cochains dm t lifts /\
  forall ext f check, sound_numpy ext -> least_squares (x_lsqr ext) -> sound_cholesky ext -> exact_cholesky ext -> (forall r, bump f r) ->
  forall turns, snd (get_coordinates (with_turns ext turns) x perc idxs f false check) = Raise LoopForever.
Proof.
  exists six, 8%nat, 8%nat, six_idxs, six_lifts, 1, 2.
  split; [exact six_consistent|]. split; [exact six_metric|]. split; [exact six_field|]. split; [reflexivity|]. split; [exact six_selected|].
  split; [lra|]. cbv zeta.
  assert (NT : forall t, t <= 2 -> Forall (fun l => cocycle_on six_dm t (fun v => v = 0%Z) (sparse_edge l)) six_lifts).
  { intros t Ht. apply Forall_forall. intros l _ i j k Hr. exfalso. exact (six_no_triangle t i j k Ht Hr). }
  assert (Et : (1 - 1 / 2) * 1 + 1 / 2 * 2 = 3 / 2) by lra. change (em_dist_land_land (t_em six)) with six_dm.
  split; [apply NT; lra|]. split; [rewrite Et; exact six_independent|].
  intros ext f check HE HL HC HX Hf.
  assert (Hch : check = true -> Forall (fun l => cocycle_on (em_dist_land_land (t_em six)) ((1 - 1 / 2) * (if false then 2 * 1 else 1) + 1 / 2 * 2) (fun v => v = 0%Z) (sparse_edge l)) six_lifts).
  { intros _. apply NT. lra. }
  destruct (several six 8 8 ext f (1 / 2) 1 2 false check six_idxs six_lifts six_consistent six_field HE HL Hf six_selected ltac:(lra) ltac:(lra) Hch ltac:(cbn; lia))
    as (A & gm & hs & gs & Mg & LA & Ecall & Hg & Hh & Ho).
  destruct (gram_independent six 8 8 (1 / 2) 1 2 false six_idxs six_lifts six_consistent six_selected ltac:(cbn; lia) gm hs gs Hg Hh Ho) as [Sy Ind].
  change (em_dist_land_land (t_em six)) with six_dm in *. change (length six_idxs) with 5%nat in *. cbv iota in Hg, Hh, Ho, Ind. rewrite Et in Hg, Hh, Ho, Ind.
  destruct (HX _ gm Mg Sy) as [X1 _]. destruct (X1 (proj2 Ind six_independent)) as (L & EL). destruct (HC _ gm L Mg EL) as [ML HL']. destruct (HL' Sy) as (_ & _ & EG).
  intros turns. rewrite Ecall. unfold reduce_circular_coordinates. rewrite EL; cbn [bind].
  assert (Ell : lll turns L = Raise LoopForever); [|rewrite Ell; reflexivity].
  destruct ML as [L5 FL].
  assert (HD : forall i, (i < 5)%nat -> length (col L i) = 5%nat).
  { intros i Hi. rewrite Forall_forall in FL. apply FL. unfold col. apply nth_In. lia. }
  pose proof (lll_twins 5 6 2 L (RM six_q) ltac:(lra) ltac:(rewrite L5; reflexivity)) as T. rewrite L5 in T.
  assert (HC6 : forall i, (i < 5)%nat -> length (col (RM six_q) i) = 6%nat).
  { intros i Hi. do 5 (destruct i as [|i]; [reflexivity|]). lia. }
  assert (HGr : forall i j, (i < 5)%nat -> (j < 5)%nat -> vdot (col L i) (col L j) = 2 * vdot (col (RM six_q) i) (col (RM six_q) j)).
  { intros i j Hi Hj. rewrite <- (six_gram hs gs i j Hh Ho Hi Hj), <- (Hg i j Hi Hj), (EG i j Hi Hj).
    rewrite (vdot_inner 5) by auto. reflexivity. }
  specialize (T HD HC6 HGr turns). rewrite six_forever in T. destruct (lll turns L) as [[B U]|e]; [contradiction|]. rewrite T; reflexivity.
Qed.
Print Assumptions C86_five_classes_refuted.
