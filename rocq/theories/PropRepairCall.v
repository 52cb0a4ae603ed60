(** PropRepairCall.v -- C18 for calls: when CircularCoords.get_coordinates repairs a class, and
    when it raises; a solver that meets all contracts. *)
From Coq Require Import Sorted Permutation Relations Cantor.
From Verif Require Import Base BaseProofs CombinatorialModel SpecSimplex CombinatorialProofs Argsort
  DeltaModel SpecRips RipsProofs DeltaProofs DeltaFacts RealBase RealSum SpecRepair RepairModel RepairProofs
  EMModel SpecEM EMProofs CircleModel SpecCircle CircleProofs LLLModel SpecLLL LLLProofs
  CohomologyModel SpecCohomology CohomologyProofs PropDelta PropRepair PropCohomology PropEM PropCircle PropLLL
  ToroidalModel SpecToroidal ToroidalProofs ToroidalFacts ToroidalCalls SpecHarmonic HarmonicProofs ToroidalTotal LeastSquares Cholesky PropTheta GraphExample.
Local Open Scope R_scope.

(** A function of oriented edges as a vector over the edges. *)
Lemma build_list {A} (P : nat -> A -> Prop) m : (forall q, (q < m)%nat -> exists a, P q a) ->
  exists v, length v = m /\ forall q a, nth_error v q = Some a -> P q a.
Proof.
  induction m as [|m IH]; intros H; [exists []; split; [reflexivity|intros [|q] a E; discriminate]|].
  destruct IH as (v & L & Hv); [intros q Hq; apply H; lia|]. destruct (H m ltac:(lia)) as [a Ha]. exists (v ++ [a]).
  split; [rewrite app_length; cbn; lia|]. intros q b E. destruct (Nat.lt_ge_cases q m) as [Hq|Hq].
  - rewrite nth_error_app1 in E by lia. apply Hv, E.
  - rewrite nth_error_app2 in E by lia. destruct (q - length v)%nat as [|r] eqn:Er; [|destruct r; discriminate]. injection E as <-. replace q with m by lia. exact Ha.
Qed.
Lemma edge_simplex n i j : (i < j < n)%nat -> simplex n 1 [i; j].
Proof. intros H. split; [reflexivity|]. split; repeat constructor; lia. Qed.
Lemma simplex_edge n s : simplex n 1 s -> exists i j, s = [i; j] /\ (i < j < n)%nat.
Proof.
  intros (L & S1 & F). destruct s as [|i [|j [|]]]; try discriminate L. exists i, j. split; [reflexivity|].
  inversion S1 as [|? ? _ F1]; subst. inversion F1; subst. inversion F as [|? ? _ F2]; subst. inversion F2; subst. lia.
Qed.
Lemma eta_vector n n' (eta : nat -> nat -> Z) : (n <= n')%nat ->
  exists v, length v = comb n 2 /\ forall i j, (i < j < n)%nat -> value_at (combinatorial_number_system_table n' 2) v [i; j] (eta i j).
Proof.
  intros Hn. set (T := combinatorial_number_system_table n' 2).
  destruct (forward_bijection n' 2 n 1 Hn ltac:(lia)) as (total & Et & B1 & B2 & B3). fold T in B1, B2, B3, Et.
  unfold T in Et. rewrite (number_of_simplices_ok n' 2 n 1 Hn ltac:(lia)) in Et. injection Et as <-.
  destruct (build_list (fun q a => exists i j, (i < j < n)%nat /\ combinatorial_number_system_forward [i; j] T = Ok q /\ a = eta i j) (comb n 2)) as (v & L & Hv).
  { intros q Hq. destruct (B3 q Hq) as (s & Hs & E). destruct (simplex_edge n s Hs) as (i & j & -> & Hij). exists (eta i j), i, j. auto. }
  exists v. split; [exact L|]. intros i j Hij. destruct (B1 [i; j] (edge_simplex n i j Hij)) as (q & Eq & Hq).
  exists q. split; [exact Eq|]. destruct (nth_error v q) as [a|] eqn:En; [|apply nth_error_None in En; lia].
  destruct (Hv q a En) as (i' & j' & Hij' & E' & ->). assert (Es : [i'; j'] = [i; j]) by (apply B2; [apply edge_simplex; assumption..|congruence]).
  injection Es as -> ->. reflexivity.
Qed.

(** What the repair of a single class does. *)
Lemma repair_single ext x n N t death c vec :
  consistent x n N -> sound_numpy ext -> edge_cocycle n c -> cocycle_until x death c -> t <= death ->
  let p := em_prime (t_em x) in let dm := em_dist_land_land (t_em x) in
  sparse_cocycle_to_vector (x_argsort ext) (lift_to_integer_cocycle p c) (t_table x) n = Ok vec -> length vec = comb n 2 ->
  let repair := repair_all Rltb (x_junk ext) p (x_milp ext) dm t (t_table x) [vec] in
  (cocycle_on dm t (fun v => v = 0%Z) (sparse_edge (lift_to_integer_cocycle p c)) -> repair = Ok [vec]) /\
  (sound_solver ext -> (~ exists eta, lifts_class x n t c eta) -> repair = Raise (NoIntegralLift 0)) /\
  (sound_solver ext -> complete_milp (x_milp ext) -> (exists eta, lifts_class x n t c eta) -> exists e, repair = Ok [e] /\ length e = comb n 2).
Proof.
  intros C HE Ecc Hu Htd p dm Ev Lv repair.
  destruct (sq_ll x n N C) as [Sq L]. fold dm in Sq, L. pose proof (lift_edge n p c Ecc) as Ez.
  destruct (co_table _ _ _ C) as (n' & Hn' & ET). pose proof (co_pos _ _ _ C) as Hp.
  assert (B : is_binomial (length dm) 2 (length vec)) by (rewrite Lv, L; apply comb_is_binomial).
  split.
  - intros Ho. unfold repair, repair_all. rewrite ET. rewrite (loop_keep Rltb dm t n' 2); [reflexivity|exact Sq|lia|lia|reflexivity|constructor; [exact B|constructor]|].
    rewrite <- ET. constructor; [|constructor]. apply (vec_cocycle x n N C ext HE _ t vec Ez Ev Ho).
  - assert (Hn2 : (Z.of_nat (length dm) <= 2345)%Z) by lia. assert (Hpp : (0 < p)%Z) by (pose proof (co_prime _ _ _ C); unfold p; lia).
    destruct (edge_vector (x_argsort ext) n n' _ (proj1 HE) Hn' Ecc) as (v0 & Ev0 & Lv0). rewrite <- ET in Ev0.
    destruct (lifts_vector (x_argsort ext) p (t_table x) n 1 c v0 Ev0) as (v2 & Ev2 & Cv).
    change (Nat.iter 1 (lift_to_integer_cocycle p) c) with (lift_to_integer_cocycle p c) in Ev2. rewrite Ev in Ev2; injection Ev2 as <-.
    assert (Hmod : one_cocycle_mod Rltb dm t (t_table x) p v0).
    { apply (until_vec x n N C ext HE death c Ecc Hu t v0 Htd). rewrite (co_landmarks _ _ _ C); exact Ev0. }
    rewrite ET in Hmod.
    pose proof (lift_mod_cocycle Rltb _ t n' _ v0 vec ltac:(rewrite L; exact Hn') Cv ltac:(rewrite L; exact Lv0) Hmod) as Hmv.
    assert (Out : sound_solver ext -> 
      (exists e, repair = Ok [e] /\ length e = comb n 2 /\ exists eta, lifts_class x n t c eta) \/
      repair = Raise (NoIntegralLift 0)).
    { intros (eps & tol & He & Ht & Het & Hm). unfold repair. rewrite ET.
      destruct (C20_one_class_is_repaired Rltb dm t n' 2 p [] vec [] eps tol (x_milp ext) (x_junk ext) Sq ltac:(lia) ltac:(lia) Hn2 Hpp ltac:(constructor; [exact B|constructor]) He Ht Het Hm Hmv (Forall_nil _))
        as [(e & Er & Oe & Ce)|Er]; cbn [app] in Er; [left|right; exact Er].
      assert (Le : length e = comb n 2) by (rewrite <- Lv; symmetry; apply (f2_length Ce)).
      exists e. split; [exact Er|]. split; [exact Le|]. eexists.
      apply (vec_lifts x n N C ext HE c t v0 e); [exact Ecc|exact Ev0|apply (cong_trans _ _ vec); assumption|rewrite ET; exact Oe|apply (eta_of_anti x n N C e Le)]. }
    split.
    + intros Hs No. destruct (Out Hs) as [(e & _ & _ & Y)|Er]; [elim No; exact Y|exact Er].
    + intros Hs Hcm (eta & Ha & Hcong & Ho). destruct (Out Hs) as [(e & Er & Le & _)|Er]; [exists e; split; assumption|]. exfalso.
      unfold repair in Er. rewrite ET in Er. unfold repair_all, range in Er. cbn [length Nat.sub seq map combine for_in] in Er. unfold repair_step in Er; cbn [fst snd] in Er.
      destruct (C15_is_one_cocycle Rltb dm t n' 2 vec Sq ltac:(lia) ltac:(lia) B) as (ans & ff & EA & _). rewrite EA in Er. cbn [bind fst snd] in Er.
      destruct ans; [discriminate Er|]. cbn [bind] in Er. destruct (make_delta1_compact _ _ _ _ _) as [M|e] eqn:EM in Er; cbn [bind] in Er.
      * destruct (repair_with p (x_milp ext) M (Z.of_nat 0) vec) as [e|e] eqn:ER; cbn [bind] in Er; [discriminate Er|]. injection Er as ->.
        apply (C18_failure_means_no_lift Rltb dm t n' 2 p vec (x_milp ext) (x_junk ext) M 0 Sq ltac:(lia) ltac:(lia) Hn2 Hpp B Hcm EM Hmv ER).
        destruct (eta_vector n n' eta Hn') as (w & Lw & Hw). exists w. split.
        -- intros i j k a b e Hr H1 H2 H3. destruct (rips_triangle _ _ _ _ _ Hr) as [L1 L2]. rewrite L in L2.
           rewrite (value_at_unique _ _ _ _ _ H1 (Hw i j ltac:(lia))), (value_at_unique _ _ _ _ _ H2 (Hw j k ltac:(lia))), (value_at_unique _ _ _ _ _ H3 (Hw i k ltac:(lia))).
           apply Ho, Hr.
        -- (* congruent at every edge *)
           destruct (forward_bijection n' 2 n 1 Hn' ltac:(lia)) as (total & Et & _ & _ & B3).
           rewrite (number_of_simplices_ok n' 2 n 1 Hn' ltac:(lia)) in Et. injection Et as <-.
           assert (G : forall q a b, nth_error vec q = Some a -> nth_error w q = Some b -> (p | a - b)%Z).
           { intros q a b Ea Eb. assert (Hq : (q < comb n 2)%nat) by (rewrite <- Lv; apply nth_error_Some; congruence).
             destruct (B3 q Hq) as (s & Hs' & Es). destruct (simplex_edge n s Hs') as (i & j & -> & Hij).
             assert (V1 : value_at (t_table x) vec [i; j] a) by (rewrite ET; exists q; auto).
             assert (V2 : value_at (combinatorial_number_system_table n' 2) w [i; j] b) by (exists q; auto).
             rewrite (value_at_unique _ _ _ _ _ V2 (Hw i j Hij)).
             pose proof (dense_value x n N C ext HE c v0 Ecc Ev0 i j Hij) as V3. pose proof (cong_value _ _ _ _ _ _ _ Cv V3 V1) as [q1 Q1].
             destruct (Hcong i j Hij) as [q2 Q2]. fold p in Q2. exists (- q1 - q2)%Z. lia. }
           assert (Lvw : length vec = length w) by congruence. clear - G Lvw. revert w G Lvw. induction vec as [|a v IH]; intros [|b w] G Lvw; try discriminate; [constructor|].
           constructor; [apply (G 0%nat); reflexivity|]. apply IH; [intros q; apply (G (S q))|cbn in Lvw; lia].
      * destruct (C12_delta1_compact Rltb dm t n' 2 Sq ltac:(lia) ltac:(lia) Hn2) as (M & _ & HM & _). rewrite HM in EM. discriminate.
Qed.

(** C18 for calls with a single class, given by its sparse cocycle [c]: if its integer lift is
    already a cocycle it is used as it is, whatever the solver; otherwise coordinates are returned
    only if the class has an integral lift (an integer cocycle congruent to [c] mod the prime), and
    if it has none the call raises; with a solver that finds existing solutions they are always
    returned if it has one. *)
Theorem C18_call :
  forall ext x n N perc idx f (sr : bool) birth death c,
  consistent x n N -> sound_numpy ext -> (forall r, bump f r) ->
  class_of x idx birth death c -> birth < death -> (if sr then 2 * birth else birth) <= death -> perc <= 1 ->
  cocycle_until x death c ->
  let t := (1 - perc) * (if sr then 2 * birth else birth) + perc * death in
  let call check := snd (circular_get_coordinates ext x perc idx f sr check) in
  (forall l, integer_lift (em_prime (t_em x)) c l -> cocycle_on (em_dist_land_land (t_em x)) t (fun v => v = 0%Z) (sparse_edge l) ->
     exists row, call true = Ok row /\ call false = Ok row) /\
  (sound_solver ext -> (~ exists eta, lifts_class x n t c eta) -> call true = Raise (NoIntegralLift 0)) /\
  (sound_solver ext -> complete_milp (x_milp ext) -> (exists eta, lifts_class x n t c eta) -> exists row, call true = Ok row).
Proof.
  intros ext x n N perc idx f sr birth death c C HE Hf Hc Hbd Hst Hperc Hu t call.
  destruct (sq_ll x n N C) as [Sq L]. set (dm := em_dist_land_land (t_em x)) in *. set (p := em_prime (t_em x)) in *.
  pose proof (class_edge_cocycle x n N C _ _ _ _ Hc) as Ecc. pose proof (lift_edge n p c Ecc) as Ez.
  destruct (co_table _ _ _ C) as (n' & Hn' & ET). pose proof (co_pos _ _ _ C) as Hp.
  destruct (edge_vector (x_argsort ext) n n' _ (proj1 HE) Hn' Ez) as (vec & Ev & Lv). rewrite <- ET in Ev.
  assert (Front : forall check, call check = (r <- coordinates ext (t_em x) (t_table x) [lift_to_integer_cocycle p c] (t / 2) t f check ;; get IndexError (fst r) 0))
    by (intros check; exact (single_front ext x n N perc idx f sr check birth death c C Hc Hbd Hst)).
  assert (Ev1 : map_res (fun c => sparse_cocycle_to_vector (x_argsort ext) c (t_table x) n) [lift_to_integer_cocycle p c] = Ok [vec]) by (cbn [map_res]; rewrite Ev; reflexivity).
  assert (Main : forall (check : bool) e, (if check then repair_all Rltb (x_junk ext) p (x_milp ext) dm t (t_table x) [vec] else Ok [vec]) = Ok [e] -> length e = comb n 2 ->
     exists row, call check = Ok row).
  { intros check e Er Le. rewrite Front.
    destruct (coordinates_total x n N ext C HE f t (Hf _) [lift_to_integer_cocycle p c] [vec] [e] check Ev1 Er ltac:(constructor; [exact Le|constructor]))
      as (M0 & W & hf & A & gm & E0 & EW & Ehf & EA & _ & ->). cbn [length Nat.ltb Nat.leb].
    pose proof (map_res_length _ _ _ Ehf) as Q1. pose proof (map_res_length _ _ _ EA) as Q2. rewrite Q1 in Q2; cbn [length] in Q2.
    destruct A as [|row [|]]; try discriminate Q2. exists row. reflexivity. }
  assert (Same : repair_all Rltb (x_junk ext) p (x_milp ext) dm t (t_table x) [vec] = Ok [vec] -> call true = call false).
  { intros Er. rewrite !Front. f_equal. unfold coordinates. rewrite (co_landmarks _ _ _ C). destruct (get_covering_partition _ _ _) as [vp bl].
    destruct (make_delta0 _ _ _ _ _); cbn [bind]; [|reflexivity]. rewrite Ev1; cbn [bind]. fold dm p. rewrite Er. reflexivity. }
  assert (Htd : t <= death) by (unfold t; destruct sr; nra).
  destruct (repair_single ext x n N t death c vec C HE Ecc Hu Htd Ev Lv) as (R1 & R2 & R3). fold dm p in R1, R2, R3.
  split; [|split].
  - intros l Hl Ho. apply integer_lift_ok in Hl. subst l. destruct (Main false vec eq_refl Lv) as [row E]. exists row. rewrite (Same (R1 Ho)). auto.
  - intros Hs No. rewrite Front. unfold coordinates. rewrite (co_landmarks _ _ _ C). destruct (get_covering_partition _ _ _) as [vp bl].
    destruct (matrices_ok x n N ext C t) as (M0 & W & E0 & EW). rewrite E0; cbn [bind]. rewrite Ev1; cbn [bind]. fold dm p. rewrite (R2 Hs No). reflexivity.
  - intros Hs Hcm Hex. destruct (R3 Hs Hcm Hex) as (e & Er & Le). apply (Main true e Er Le).
Qed.
Print Assumptions C18_call.

(** ** Examples *)
Definition good_ext : externals := mkExt argsort_Z exhaustive_milp lsq exact_chol (fun _ => 7%Z) 10.
Lemma good_ext_ok : sound_numpy good_ext /\ sound_solver good_ext /\ complete_milp (x_milp good_ext).
Proof.
  split; [exact theta_numpy|]. split; [|exact exhaustive_complete]. exists 0, 0. split; [lra|]. split; [lra|]. split; [lra|exact exhaustive_sound].
Qed.
(** A circle with one filled triangle; the class has an integral lift, but taking the
    representatives 1, 1, -1 of its values does not give one. *)
Definition kite_edges : list (nat * nat) := [(0, 1); (0, 2); (1, 2); (2, 3); (3, 4); (0, 4)]%nat.
Definition kite_class : cocycle := edges_cocycle [(0%nat, 1%nat, 1%Z); (1%nat, 2%nat, 1%Z); (0%nat, 2%nat, 2%Z)].
(** A projective plane with eleven vertices whose Rips complex has no other triangles; its class
    mod 2 has no integral lift. *)
Definition plane_edges : list (nat * nat) :=
  [(0, 1); (0, 2); (0, 5); (0, 6); (0, 7); (0, 9); (1, 4); (1, 7); (1, 8); (1, 9); (1, 10); (2, 4); (2, 5); (2, 6); (2, 8); (2, 10); (3, 4); (3, 5); (3, 6); (3, 7); (3, 9); (3, 10); (4, 5); (4, 7); (4, 8); (5, 9); (6, 7); (6, 10); (8, 10); (9, 10)]%nat.
Definition plane_class : cocycle :=
  edges_cocycle (map (fun e => (fst e, snd e, 1%Z)) [(0, 1); (0, 7); (1, 9); (3, 6); (3, 10); (6, 7); (9, 10)]%nat).

Ltac edge_class := repeat constructor; cbn; try lia; intuition lia.
Example C18_call_nonvacuous :
  (sound_numpy good_ext /\ sound_solver good_ext /\ complete_milp (x_milp good_ext)) /\
  (let x := graph 5 kite_edges 3 [kite_class] in let ll := em_dist_land_land (t_em x) in
   consistent x 5 5 /\ metric x /\ field_valued x /\ class_of x (PyInt 0) 1 2 kite_class /\ cocycle_until x 2 kite_class /\
   (forall l, integer_lift 3 kite_class l -> ~ cocycle_on ll (3 / 2) (fun v => v = 0%Z) (sparse_edge l)) /\
   exists eta, lifts_class x 5 (3 / 2) kite_class eta) /\
  (let x := graph 11 plane_edges 2 [plane_class] in
   consistent x 11 11 /\ metric x /\ field_valued x /\ class_of x (PyInt 0) 1 2 plane_class /\ cocycle_until x 2 plane_class /\
   ~ exists eta, lifts_class x 11 (3 / 2) plane_class eta).
Proof.
  assert (Dv : forall p, (0 < p)%Z -> forall v, ((v mod p =? 0)%Z = true -> (p | v)%Z)).
  { intros p Hp v H. apply Z.eqb_eq in H. apply Z.mod_divide; [lia|exact H]. }
  split; [exact good_ext_ok|]. split.
  - cbv zeta. split; [apply graph_consistent; [lia|lia|edge_class]|]. split; [apply graph_metric|]. split.
    { intros cs c row H1 H2 H3. cbn in H1; injection H1 as <-. destruct H2 as [<-|[]]. cbn in H3. repeat (destruct H3 as [<-|H3]; [cbn; lia|]). contradiction. }
    split; [apply (graph_class 5 kite_edges 3 [kite_class] 0); reflexivity|]. split.
    { apply (graph_cocycle 5 kite_edges 2 _ (fun v => (v mod 3 =? 0)%Z)); [lra|apply Dv; cbn; lia|vm_compute; reflexivity]. }
    split.
    + intros l Hl Ho. apply integer_lift_ok in Hl. subst l.
      assert (Hr : rips Rltb (em_dist_land_land (t_em (graph 5 kite_edges 3 [kite_class]))) (3 / 2) 2 [0; 1; 2]%nat).
      { apply (graph_triangle 5 kite_edges (3 / 2)); [lra|]. vm_compute. tauto. }
      specialize (Ho _ _ _ Hr). vm_compute in Ho. discriminate.
    + exists (fun i j => if (i <? j)%nat then sparse_edge kite_class i j else if (j <? i)%nat then (- sparse_edge kite_class j i)%Z else 0%Z). split; [|split].
      * intros i j. destruct (Nat.ltb_spec i j), (Nat.ltb_spec j i); lia.
      * intros i j Hij. destruct (Nat.ltb_spec i j); [|lia]. rewrite Z.sub_diag. apply Z.divide_0_r.
      * apply (graph_cocycle 5 kite_edges (3 / 2) _ (fun v => (v =? 0)%Z)); [lra|intros v; apply Z.eqb_eq|vm_compute; reflexivity].
  - cbv zeta. split; [apply graph_consistent; [lia|lia|edge_class]|]. split; [apply graph_metric|]. split.
    { intros cs c row H1 H2 H3. cbn in H1; injection H1 as <-. destruct H2 as [<-|[]]. cbn in H3. repeat (destruct H3 as [<-|H3]; [cbn; lia|]). contradiction. }
    split; [apply (graph_class 11 plane_edges 2 [plane_class] 0); reflexivity|]. split.
    { apply (graph_cocycle 11 plane_edges 2 _ (fun v => (v mod 2 =? 0)%Z)); [lra|apply Dv; cbn; lia|vm_compute; reflexivity]. }
    intros (eta & _ & Hc & Ho).
    assert (Z3 : forall i j k, In (i, j, k) (cliques 11 plane_edges) -> (eta i j + eta j k - eta i k = 0)%Z).
    { intros i j k Hin. apply Ho. apply (graph_triangle 11 plane_edges (3 / 2)); [lra|exact Hin]. }
    assert (D2 : forall i j, (i < j < 11)%nat -> exists q, eta i j = (sparse_edge plane_class i j + q * 2)%Z).
    { intros i j Hij. destruct (Hc i j Hij) as [q Q]. cbn [graph t_em em_prime] in Q. exists q. lia. }
    clear Hc Ho Dv.
    pose proof (Z3 0%nat 1%nat 7%nat ltac:(vm_compute; tauto)) as T0.
    pose proof (Z3 0%nat 1%nat 9%nat ltac:(vm_compute; tauto)) as T1.
    pose proof (Z3 0%nat 2%nat 5%nat ltac:(vm_compute; tauto)) as T2.
    pose proof (Z3 0%nat 2%nat 6%nat ltac:(vm_compute; tauto)) as T3.
    pose proof (Z3 0%nat 5%nat 9%nat ltac:(vm_compute; tauto)) as T4.
    pose proof (Z3 0%nat 6%nat 7%nat ltac:(vm_compute; tauto)) as T5.
    pose proof (Z3 1%nat 4%nat 7%nat ltac:(vm_compute; tauto)) as T6.
    pose proof (Z3 1%nat 4%nat 8%nat ltac:(vm_compute; tauto)) as T7.
    pose proof (Z3 1%nat 8%nat 10%nat ltac:(vm_compute; tauto)) as T8.
    pose proof (Z3 1%nat 9%nat 10%nat ltac:(vm_compute; tauto)) as T9.
    pose proof (Z3 2%nat 4%nat 5%nat ltac:(vm_compute; tauto)) as T10.
    pose proof (Z3 2%nat 4%nat 8%nat ltac:(vm_compute; tauto)) as T11.
    pose proof (Z3 2%nat 6%nat 10%nat ltac:(vm_compute; tauto)) as T12.
    pose proof (Z3 2%nat 8%nat 10%nat ltac:(vm_compute; tauto)) as T13.
    pose proof (Z3 3%nat 4%nat 5%nat ltac:(vm_compute; tauto)) as T14.
    pose proof (Z3 3%nat 4%nat 7%nat ltac:(vm_compute; tauto)) as T15.
    pose proof (Z3 3%nat 5%nat 9%nat ltac:(vm_compute; tauto)) as T16.
    pose proof (Z3 3%nat 6%nat 7%nat ltac:(vm_compute; tauto)) as T17.
    pose proof (Z3 3%nat 6%nat 10%nat ltac:(vm_compute; tauto)) as T18.
    pose proof (Z3 3%nat 9%nat 10%nat ltac:(vm_compute; tauto)) as T19.
    assert (S : ((eta 0%nat 1%nat + eta 1%nat 7%nat - eta 0%nat 7%nat) + (eta 0%nat 1%nat + eta 1%nat 9%nat - eta 0%nat 9%nat) + (eta 0%nat 2%nat + eta 2%nat 5%nat - eta 0%nat 5%nat) + (eta 0%nat 2%nat + eta 2%nat 6%nat - eta 0%nat 6%nat) + (eta 0%nat 5%nat + eta 5%nat 9%nat - eta 0%nat 9%nat) + (eta 0%nat 6%nat + eta 6%nat 7%nat - eta 0%nat 7%nat) + (eta 1%nat 4%nat + eta 4%nat 7%nat - eta 1%nat 7%nat) + (eta 1%nat 4%nat + eta 4%nat 8%nat - eta 1%nat 8%nat) + (eta 1%nat 8%nat + eta 8%nat 10%nat - eta 1%nat 10%nat) + (eta 1%nat 9%nat + eta 9%nat 10%nat - eta 1%nat 10%nat) + (eta 2%nat 4%nat + eta 4%nat 5%nat - eta 2%nat 5%nat) + (eta 2%nat 4%nat + eta 4%nat 8%nat - eta 2%nat 8%nat) + (eta 2%nat 6%nat + eta 6%nat 10%nat - eta 2%nat 10%nat) + (eta 2%nat 8%nat + eta 8%nat 10%nat - eta 2%nat 10%nat) + (eta 3%nat 4%nat + eta 4%nat 5%nat - eta 3%nat 5%nat) + (eta 3%nat 4%nat + eta 4%nat 7%nat - eta 3%nat 7%nat) + (eta 3%nat 5%nat + eta 5%nat 9%nat - eta 3%nat 9%nat) + (eta 3%nat 6%nat + eta 6%nat 7%nat - eta 3%nat 7%nat) + (eta 3%nat 6%nat + eta 6%nat 10%nat - eta 3%nat 10%nat) + (eta 3%nat 9%nat + eta 9%nat 10%nat - eta 3%nat 10%nat) = 0)%Z) by lia.
    clear Z3 T0 T1 T2 T3 T4 T5 T6 T7 T8 T9 T10 T11 T12 T13 T14 T15 T16 T17 T18 T19.
    destruct (D2 0%nat 1%nat ltac:(lia)) as (q0 & Q0). let v := eval vm_compute in (sparse_edge plane_class 0 1) in change (sparse_edge plane_class 0 1) with v in Q0.
    destruct (D2 0%nat 2%nat ltac:(lia)) as (q1 & Q1). let v := eval vm_compute in (sparse_edge plane_class 0 2) in change (sparse_edge plane_class 0 2) with v in Q1.
    destruct (D2 0%nat 7%nat ltac:(lia)) as (q2 & Q2). let v := eval vm_compute in (sparse_edge plane_class 0 7) in change (sparse_edge plane_class 0 7) with v in Q2.
    destruct (D2 0%nat 9%nat ltac:(lia)) as (q3 & Q3). let v := eval vm_compute in (sparse_edge plane_class 0 9) in change (sparse_edge plane_class 0 9) with v in Q3.
    destruct (D2 1%nat 4%nat ltac:(lia)) as (q4 & Q4). let v := eval vm_compute in (sparse_edge plane_class 1 4) in change (sparse_edge plane_class 1 4) with v in Q4.
    destruct (D2 1%nat 9%nat ltac:(lia)) as (q5 & Q5). let v := eval vm_compute in (sparse_edge plane_class 1 9) in change (sparse_edge plane_class 1 9) with v in Q5.
    destruct (D2 1%nat 10%nat ltac:(lia)) as (q6 & Q6). let v := eval vm_compute in (sparse_edge plane_class 1 10) in change (sparse_edge plane_class 1 10) with v in Q6.
    destruct (D2 2%nat 4%nat ltac:(lia)) as (q7 & Q7). let v := eval vm_compute in (sparse_edge plane_class 2 4) in change (sparse_edge plane_class 2 4) with v in Q7.
    destruct (D2 2%nat 6%nat ltac:(lia)) as (q8 & Q8). let v := eval vm_compute in (sparse_edge plane_class 2 6) in change (sparse_edge plane_class 2 6) with v in Q8.
    destruct (D2 2%nat 10%nat ltac:(lia)) as (q9 & Q9). let v := eval vm_compute in (sparse_edge plane_class 2 10) in change (sparse_edge plane_class 2 10) with v in Q9.
    destruct (D2 3%nat 4%nat ltac:(lia)) as (q10 & Q10). let v := eval vm_compute in (sparse_edge plane_class 3 4) in change (sparse_edge plane_class 3 4) with v in Q10.
    destruct (D2 3%nat 6%nat ltac:(lia)) as (q11 & Q11). let v := eval vm_compute in (sparse_edge plane_class 3 6) in change (sparse_edge plane_class 3 6) with v in Q11.
    destruct (D2 3%nat 7%nat ltac:(lia)) as (q12 & Q12). let v := eval vm_compute in (sparse_edge plane_class 3 7) in change (sparse_edge plane_class 3 7) with v in Q12.
    destruct (D2 3%nat 10%nat ltac:(lia)) as (q13 & Q13). let v := eval vm_compute in (sparse_edge plane_class 3 10) in change (sparse_edge plane_class 3 10) with v in Q13.
    destruct (D2 4%nat 5%nat ltac:(lia)) as (q14 & Q14). let v := eval vm_compute in (sparse_edge plane_class 4 5) in change (sparse_edge plane_class 4 5) with v in Q14.
    destruct (D2 4%nat 7%nat ltac:(lia)) as (q15 & Q15). let v := eval vm_compute in (sparse_edge plane_class 4 7) in change (sparse_edge plane_class 4 7) with v in Q15.
    destruct (D2 4%nat 8%nat ltac:(lia)) as (q16 & Q16). let v := eval vm_compute in (sparse_edge plane_class 4 8) in change (sparse_edge plane_class 4 8) with v in Q16.
    destruct (D2 5%nat 9%nat ltac:(lia)) as (q17 & Q17). let v := eval vm_compute in (sparse_edge plane_class 5 9) in change (sparse_edge plane_class 5 9) with v in Q17.
    destruct (D2 6%nat 7%nat ltac:(lia)) as (q18 & Q18). let v := eval vm_compute in (sparse_edge plane_class 6 7) in change (sparse_edge plane_class 6 7) with v in Q18.
    destruct (D2 6%nat 10%nat ltac:(lia)) as (q19 & Q19). let v := eval vm_compute in (sparse_edge plane_class 6 10) in change (sparse_edge plane_class 6 10) with v in Q19.
    destruct (D2 8%nat 10%nat ltac:(lia)) as (q20 & Q20). let v := eval vm_compute in (sparse_edge plane_class 8 10) in change (sparse_edge plane_class 8 10) with v in Q20.
    destruct (D2 9%nat 10%nat ltac:(lia)) as (q21 & Q21). let v := eval vm_compute in (sparse_edge plane_class 9 10) in change (sparse_edge plane_class 9 10) with v in Q21.
    lia.
Qed.
