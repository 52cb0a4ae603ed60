(** PropLLL.v -- properties C37, C40-C42: the lattice reduction of toroidalcoords.py.
    Matrices are lists of columns. *)
From Verif Require Import Base BaseProofs RealBase RealSum SpecEM EMProofs SpecCircle CircleProofs LLLModel SpecLLL LLLProofs LLLExecution.
Local Open Scope R_scope.

(** C37: at every turn of the loop the current basis is the input basis recombined by the
    recorded change matrix, which is integral with integral inverse; so the lattice is unchanged. *)
Theorem C37_every_step :
  forall n B delta st, matrix n n B -> lll_reaches delta B st ->
  matrix n n (l_B st) /\
  (exists U, unimodular n U /\ l_change st = map (map IZR) U /\ recombined n U B (l_B st)) /\
  (forall v, in_lattice n (l_B st) v <-> in_lattice n B v).
Proof.
  intros n B delta st HB Rs. destruct (reaches_wf n B delta st HB Rs) as (HB' & HC & _ & _ & HU).
  destruct (Uni_unimodular n B _ _ HB' HC HU) as (U & HUn & EC & HR).
  split; [exact HB'|split; [exists U; auto|]].
  intros v; pose proof HUn as (MU & V & MV & E1 & E2); split.
  - apply (recombined_lattice n U); assumption.
  - apply (recombined_lattice n V); [exact MV|]. apply (recombined_inverse n U V); assumption.
Qed.
Print Assumptions C37_every_step.

Theorem C37_result :
  forall n B fuel B' change, matrix n n B -> lll fuel B = Ok (B', change) ->
  matrix n n B' /\
  (exists U, unimodular n U /\ change = map (map IZR) U /\ recombined n U B B') /\
  (forall v, in_lattice n B' v <-> in_lattice n B v).
Proof.
  intros n B fuel B' change HB E.
  destruct (loop_reaches (3 / 4) B fuel (lll_init B) B' change (reach_init _ _) E) as (st & Rs & <- & <- & _).
  apply (C37_every_step n B (3 / 4)); assumption.
Qed.
Print Assumptions C37_result.

Lemma reduce_id st : (forall j, (j < l_k st)%nat -> Rabs (mu st (l_k st) j) <= 1 / 2) -> lll_reduce st = st.
Proof.
  intros H; unfold lll_reduce.
  assert (G : forall l, (forall j, In j l -> (j < l_k st)%nat) -> fold_left (lll_reduce1 (l_k st)) l st = st).
  { induction l as [|j l IH]; intros Hl; [reflexivity|]. cbn [fold_left].
    unfold lll_reduce1 at 2; rewrite (proj2 (Rltb_false _ _)) by (apply H, Hl; left; reflexivity).
    apply IH; intros; apply Hl; right; assumption. }
  apply G; intros j Hj; rewrite <- in_rev in Hj; unfold range in Hj; apply in_seq in Hj; lia.
Qed.
Lemma turn_id st : (forall j, (j < l_k st)%nat -> Rabs (mu st (l_k st) j) <= 1 / 2) ->
  (3 / 4 - mu st (l_k st) (l_k st - 1) ^ 2) * vdot (col (l_Q st) (l_k st - 1)) (col (l_Q st) (l_k st - 1))
    < vdot (col (l_Q st) (l_k st)) (col (l_Q st) (l_k st)) ->
  lll_turn (3 / 4) st = mkLLL (l_B st) (l_Q st) (l_change st) (l_k st + 1).
Proof. intros H1 H2; unfold lll_turn; rewrite reduce_id by exact H1. rewrite (proj2 (Rltb_true _ _) H2); reflexivity. Qed.

Ltac vred := cbv [vdot vsub vscale map combine fold_right fst snd].

(** A concrete input (columns (2,0) and (3,1/2)) and a state reached after one turn. *)
Example C37_nonvacuous : matrix 2 2 [[2; 0]; [3; 1 / 2]] /\ independent 2 [[2; 0]; [3; 1 / 2]] /\
  lll_reaches (3 / 4) [[2; 0]; [3; 1 / 2]] (lll_turn (3 / 4) (lll_init [[2; 0]; [3; 1 / 2]])).
Proof.
  split; [split; [reflexivity|repeat constructor]|split].
  - intros c H h Hh. pose proof (H 0%nat ltac:(lia)) as H0; pose proof (H 1%nat ltac:(lia)) as H1.
    cbn in H0, H1. destruct h as [|[|h]]; [lra|lra|lia].
  - apply reach_turn; [apply reach_init|cbn; lia].
Qed.

(** C40.  What _gram_schmidt does for every size: the result is triangular with unit
    diagonal over the input (so spans are the same), and each column is orthogonal to the
    previous INPUT column ... *)
Theorem C40_gram_schmidt_triangular :
  forall n B, matrix n n B -> matrix n n (gram_schmidt B) /\
  (forall i, (i < n)%nat -> exists t : nat -> R, forall r, (r < n)%nat ->
     at2 0 (gram_schmidt B) i r = at2 0 B i r + sumn i (fun j => t j * at2 0 B j r)) /\
  (forall i, (S i < n)%nat -> inner n (nth (S i) (gram_schmidt B) []) (nth i B []) = 0).
Proof.
  intros n B HB; pose proof HB as [L _]; split; [apply gram_schmidt_matrix, HB|split].
  - intros i Hi. destruct (gs_fold_triangular n B i (range 0 i) HB Hi) with (v := col B i) as (t & _ & Ht).
    + intros j Hj; unfold range in Hj; apply in_seq in Hj; lia.
    + apply col_length; assumption.
    + exists t; intros r Hr; rewrite at2_col, col_gs by lia. apply Ht, Hr.
  - intros i Hi. fold (col (gram_schmidt B) (S i)); rewrite col_gs by lia.
    rewrite <- (vdot_inner n) by (apply gs_column_length || apply (col_length n B); assumption || lia).
    fold (col B i). unfold gs_column, range; rewrite Nat.sub_0_r, seq_S, fold_left_app; cbn [fold_left plus].
    set (v := fold_left _ (seq 0 i) (col B (S i))).
    assert (Lv : length v = n).
    { destruct (gs_fold_triangular n B i (seq 0 i) HB ltac:(lia)) with (v := col B (S i)) as (t & Lt & _); [|apply col_length; assumption|exact Lt].
      intros j Hj; apply in_seq in Hj; lia. }
    assert (Li : length (col B i) = n) by (apply col_length; assumption || lia).
    rewrite vdot_sub_l by (rewrite proj_length; lia). unfold proj, gs_coefficient; rewrite vdot_scale_l.
    destruct (Req_dec (vdot (col B i) (col B i)) 0) as [E|N].
    + rewrite (vdot_comm v), (vdot_self_zero_l _ v E), E; ring.
    + field; exact N.
Qed.
Print Assumptions C40_gram_schmidt_triangular.

(** ... which for at most two columns is the promised orthogonalisation ... *)
Theorem C40_orthogonal_for_two :
  forall n B, matrix n n B -> (n <= 2)%nat -> orthogonal n (gram_schmidt B).
Proof.
  intros n B HB Hn i j Hi Hj N; pose proof HB as [L _].
  assert (G : forall a, n = S (S a) -> inner n (nth 1 (gram_schmidt B) []) (nth 0 (gram_schmidt B) []) = 0).
  { intros a E. pose proof (proj2 (proj2 (C40_gram_schmidt_triangular n B HB)) 0%nat ltac:(lia)) as O.
    fold (col (gram_schmidt B) 0); rewrite col_gs by lia. rewrite gs_column_0; exact O. }
  destruct i as [|[|i]]; destruct j as [|[|j]]; try lia.
  - rewrite inner_comm; apply (G (n - 2)%nat); lia.
  - apply (G (n - 2)%nat); lia.
Qed.
Print Assumptions C40_orthogonal_for_two.

(** ... but not for three. *)
Theorem C40_orthogonal_for_three_refuted :
  exists B, matrix 3 3 B /\ independent 3 B /\ ~ orthogonal 3 (gram_schmidt B).
Proof.
  exists [[1; 0; 0]; [1; 1; 0]; [0; 1; 1]].
  split; [split; [reflexivity|repeat constructor]|split].
  - intros c H h Hh. pose proof (H 0%nat ltac:(lia)) as H0; pose proof (H 1%nat ltac:(lia)) as H1; pose proof (H 2%nat ltac:(lia)) as H2.
    cbn in H0, H1, H2. destruct h as [|[|[|h]]]; [lra|lra|lra|lia].
  - intros O. specialize (O 2%nat 0%nat ltac:(lia) ltac:(lia) ltac:(lia)).
    unfold inner in O; cbn in O. unfold gs_coefficient, vdot in O; cbn in O.
    field_simplify in O. lra.
Qed.
Print Assumptions C40_orthogonal_for_three_refuted.

(** C41: two classes. *)
Theorem C41_two_classes :
  forall B, matrix 2 2 B -> independent 2 B ->
  exists fuel c0 c1 change, (forall more, lll (fuel + more) B = Ok ([c0; c1], change)) /\
    2 * Rabs (inner 2 c0 c1) <= inner 2 c0 c0 /\
    3 / 4 * inner 2 c0 c0 < inner 2 c1 c1 /\
    0 < inner 2 c0 c0 /\
    inner 2 c0 c0 + inner 2 c1 c1 <= inner 2 (nth 0 B []) (nth 0 B []) + inner 2 (nth 1 B []) (nth 1 B []) /\
    Rabs (inner 2 c0 c1) <= Rabs (inner 2 (nth 0 B []) (nth 1 B [])).
Proof.
  intros B HB HI. pose proof (independent_det2 B HI) as D.
  destruct (lll2_terminates B HB D) as (fuel & [B' change] & E).
  assert (S : exists st, (Inv2 B st /\ lll_reaches (3 / 4) B st) /\ l_B st = B' /\ l_change st = change /\ (length B' <= l_k st)%nat).
  { apply (loop_inv (fun st => Inv2 B st /\ lll_reaches (3 / 4) B st)) with (fuel := fuel) (st := lll_init B).
    - intros st [I1 I2] K; split; [|apply reach_turn; assumption].
      apply Inv2_turn; [assumption..|]. destruct I1 as (([L _] & _) & _); rewrite L in K; exact K.
    - split; [apply Inv2_init, HB|apply reach_init].
    - exact E. }
  destruct S as (st & [(W & K & En & Hb) Rs] & EB & EC & Lk).
  destruct (reaches_done 2 B st HB Rs) as [D1 D2].
  destruct (d1_pos2 B st HB W D) as [PE Pd].
  pose proof W as (HB' & _). rewrite EB in *.
  destruct B' as [|c0 [|c1 [|]]]; try (destruct HB' as [L _]; discriminate).
  assert (L0 : length c0 = 2%nat) by (apply (col_length 2 [c0; c1] 0 HB'); lia).
  assert (L1 : length c1 = 2%nat) by (apply (col_length 2 [c0; c1] 1 HB'); lia).
  assert (M0 : length (col B 0) = 2%nat) by (apply col_length; assumption || lia).
  assert (M1 : length (col B 1) = 2%nat) by (apply col_length; assumption || lia).
  cbn [length] in Lk.
  exists fuel, c0, c1, change. split; [intros more; apply (loop_more (3 / 4) fuel _ _ E); lia|].
  change (nth 0 B []) with (col B 0); change (nth 1 B []) with (col B 1).
  rewrite <- !(vdot_inner 2) by assumption.
  change (col [c0; c1] 0) with c0 in *; change (col [c0; c1] 1) with c1 in *.
  assert (P0 : 0 < vdot c0 c0).
  { eapply Rlt_le_trans; [|exact Pd]. apply Rdiv_lt_0_compat; [apply pow2_gt_0, D|exact PE]. }
  pose proof (D1 1%nat 0%nat ltac:(lia) ltac:(lia) ltac:(lia)) as Rd; unfold reduced in Rd.
  rewrite gs_column_0 in Rd; change (col [c0; c1] 0) with c0 in Rd; change (col [c0; c1] 1) with c1 in Rd.
  unfold energy2 in En; change (col [c0; c1] 0) with c0 in En; change (col [c0; c1] 1) with c1 in En.
  rewrite (vdot_comm c0 c1), (vdot_comm (col B 0) (col B 1)).
  split; [exact Rd|split; [apply D2; [lia|lra]|split; [exact P0|split; [exact En|exact Hb]]]].
Qed.
Print Assumptions C41_two_classes.

(** C42.  On exit, for any number of vectors: the coefficients on the first two
    orthogonalised vectors are at most 1/2, and the first Lovasz condition holds. *)
Theorem C42_exit_condition :
  forall n B fuel B' change, matrix n n B -> (2 <= n)%nat -> lll fuel B = Ok (B', change) ->
  forall Q m, orthogonalisation n B' Q m ->
  (forall i j, (j < i)%nat -> (i < n)%nat -> (j < 2)%nat ->
     inner n (nth j Q []) (nth j Q []) <> 0 -> Rabs (m i j) <= 1 / 2) /\
  (inner n (nth 0 Q []) (nth 0 Q []) <> 0 ->
     (3 / 4 - m 1%nat 0%nat ^ 2) * inner n (nth 0 Q []) (nth 0 Q []) < inner n (nth 1 Q []) (nth 1 Q [])).
Proof. intros; apply (exit_reduced n B fuel B' change); assumption. Qed.
Print Assumptions C42_exit_condition.

(** Three vectors: termination with a size-reduced basis ... *)
Theorem C42_three_classes :
  forall B, matrix 3 3 B -> independent 3 B ->
  exists fuel B' change, (forall more, lll (fuel + more) B = Ok (B', change)) /\
    forall Q m, orthogonalisation 3 B' Q m -> forall i j, (j < i)%nat -> (i < 3)%nat ->
      inner 3 (nth j Q []) (nth j Q []) <> 0 -> Rabs (m i j) <= 1 / 2.
Proof.
  intros B HB HI. destruct (lll3_terminates B HB (independent_det3 B HI)) as (fuel & [B' change] & E).
  exists fuel, B', change; split; [intros more; apply (loop_more (3 / 4) fuel _ _ E); lia|].
  intros Q m HO i j Hj Hi N. destruct (C42_exit_condition 3 B fuel B' change HB ltac:(lia) E Q m HO) as [H _].
  apply H; lia || assumption.
Qed.
Print Assumptions C42_three_classes.

(** ... that need not satisfy the Lovasz condition; ... *)
Theorem C42_three_lovasz_refuted :
  exists B Q m, matrix 3 3 B /\ independent 3 B /\
    (exists change, forall more, lll (2 + more) B = Ok (B, change)) /\ orthogonalisation 3 B Q m /\
    inner 3 (nth 2 Q []) (nth 2 Q []) < (3 / 4 - m 2%nat 1%nat ^ 2) * inner 3 (nth 1 Q []) (nth 1 Q []).
Proof.
  set (B := [[4; 0; 0]; [-2; 3; 0]; [0; 3 / 2; 2]]).
  exists B, [[4; 0; 0]; [0; 3; 0]; [0; 0; 2]],
    (fun i j => match i, j with 1%nat, 0%nat => -1 / 2 | 2%nat, 1%nat => 1 / 2 | _, _ => 0 end).
  split; [split; [reflexivity|repeat constructor]|split; [|split; [|split]]].
  - intros c H h Hh. pose proof (H 0%nat ltac:(lia)) as H0; pose proof (H 1%nat ltac:(lia)) as H1; pose proof (H 2%nat ltac:(lia)) as H2.
    cbn in H0, H1, H2. destruct h as [|[|[|h]]]; [lra|lra|lra|lia].
  - exists (eye 3); intros more.
    assert (G0 : gs_column B 0 = [4; 0; 0]) by reflexivity.
    assert (G1 : gs_column B 1 = [0; 3; 0]).
    { rewrite gs_column_1; unfold proj, gs_coefficient, col, B; cbn [nth]; vred. repeat (f_equal; [field|]); f_equal; field. }
    assert (G2 : gs_column B 2 = [9 / 13; 6 / 13; 2]).
    { rewrite gs_column_2; unfold proj, gs_coefficient, col, B; cbn [nth]; vred. repeat (f_equal; [field|]); f_equal; field. }
    assert (EQ : gram_schmidt B = [[4; 0; 0]; [0; 3; 0]; [9 / 13; 6 / 13; 2]]).
    { unfold gram_schmidt; cbn [length B range seq map Nat.sub]; fold B; rewrite G0, G1, G2; reflexivity. }
    unfold lll, lll_init; change (length B) with 3%nat. rewrite EQ.
    cbn [plus lll_loop l_k l_B length B Nat.ltb Nat.leb]; fold B.
    rewrite turn_id; cbn [l_k l_B l_Q l_change plus Nat.sub length B Nat.ltb Nat.leb]; fold B.
    2:{ intros j Hj; assert (j = 0%nat) as -> by lia. unfold mu, col, B; cbn [l_B l_Q nth]; vred. rewrite Rabs_left; lra. }
    2:{ unfold mu, col, B; cbn [l_B l_Q nth]; vred. lra. }
    rewrite turn_id; cbn [l_k l_B l_Q l_change plus Nat.sub length B Nat.ltb Nat.leb]; fold B.
    2:{ intros j Hj; assert (C : j = 0%nat \/ j = 1%nat) by lia; destruct C as [-> | ->]; unfold mu, col, B; cbn [l_B l_Q nth]; vred; rewrite Rabs_right; lra. }
    2:{ unfold mu, col, B; cbn [l_B l_Q nth]; vred. lra. }
    destruct more; reflexivity.
  - split; [split; [reflexivity|repeat constructor]|split].
    + intros i j Hi Hj N. destruct i as [|[|[|i]]]; destruct j as [|[|[|j]]]; try lia; unfold inner; cbn; lra.
    + intros i r Hi Hr; destruct i as [|[|[|i]]]; destruct r as [|[|[|r]]]; try lia; cbn; lra.
  - unfold inner; cbn; lra.
Qed.
Print Assumptions C42_three_lovasz_refuted.

(** ... and from four vectors on the result need not even be size-reduced. *)
Theorem C42_four_size_reduced_refuted :
  exists B Q m, matrix 4 4 B /\ independent 4 B /\
    (exists change, forall more, lll (3 + more) B = Ok (B, change)) /\ orthogonalisation 4 B Q m /\
    inner 4 (nth 2 Q []) (nth 2 Q []) <> 0 /\ 1 / 2 < Rabs (m 3%nat 2%nat).
Proof.
  set (B := [[2; 0; 0; 0]; [-1; 2; 0; 0]; [-1; -1; 3 / 2; 0]; [-1; 0; -1; 3 / 2]]).
  exists B, [[2; 0; 0; 0]; [0; 2; 0; 0]; [0; 0; 3 / 2; 0]; [0; 0; 0; 3 / 2]],
    (fun i j => match i, j with 1%nat, 0%nat => -1 / 2 | 2%nat, 0%nat => -1 / 2 | 2%nat, 1%nat => -1 / 2
                | 3%nat, 0%nat => -1 / 2 | 3%nat, 2%nat => -2 / 3 | _, _ => 0 end).
  split; [split; [reflexivity|repeat constructor]|split; [|split; [|split; [|split]]]].
  - intros c H h Hh. pose proof (H 0%nat ltac:(lia)) as H0; pose proof (H 1%nat ltac:(lia)) as H1; pose proof (H 2%nat ltac:(lia)) as H2.
    pose proof (H 3%nat ltac:(lia)) as H3.
    cbn in H0, H1, H2, H3. destruct h as [|[|[|[|h]]]]; [lra|lra|lra|lra|lia].
  - exists (eye 4); intros more.
    assert (G0 : gs_column B 0 = [2; 0; 0; 0]) by reflexivity.
    assert (G1 : gs_column B 1 = [0; 2; 0; 0]).
    { rewrite gs_column_1; unfold proj, gs_coefficient, col, B; cbn [nth]; vred. repeat (f_equal; [field|]); f_equal; field. }
    assert (G2 : gs_column B 2 = [- 2 / 5; - 1 / 5; 3 / 2; 0]).
    { rewrite gs_column_2; unfold proj, gs_coefficient, col, B; cbn [nth]; vred. repeat (f_equal; [field|]); f_equal; field. }
    assert (G3 : gs_column B 3 = [- 6 / 17; - 6 / 17; - 8 / 17; 3 / 2]).
    { unfold gs_column, range; cbn [seq Nat.sub fold_left].
      unfold proj, gs_coefficient, col, B; cbn [nth]; vred. repeat (f_equal; [field|]); f_equal; field. }
    assert (EQ : gram_schmidt B = [[2; 0; 0; 0]; [0; 2; 0; 0]; [- 2 / 5; - 1 / 5; 3 / 2; 0]; [- 6 / 17; - 6 / 17; - 8 / 17; 3 / 2]]).
    { unfold gram_schmidt; cbn [length B range seq map Nat.sub]; fold B; rewrite G0, G1, G2, G3; reflexivity. }
    unfold lll, lll_init; change (length B) with 4%nat. rewrite EQ.
    cbn [plus lll_loop l_k l_B length B Nat.ltb Nat.leb]; fold B.
    rewrite turn_id; cbn [l_k l_B l_Q l_change plus Nat.sub length B Nat.ltb Nat.leb]; fold B.
    2:{ intros j Hj; assert (j = 0%nat) as -> by lia. unfold mu, col, B; cbn [l_B l_Q nth]; vred. rewrite Rabs_left; lra. }
    2:{ unfold mu, col, B; cbn [l_B l_Q nth]; vred. lra. }
    rewrite turn_id; cbn [l_k l_B l_Q l_change plus Nat.sub length B Nat.ltb Nat.leb]; fold B.
    2:{ intros j Hj; assert (C : j = 0%nat \/ j = 1%nat) by lia; destruct C as [-> | ->]; unfold mu, col, B; cbn [l_B l_Q nth]; vred; rewrite Rabs_left; lra. }
    2:{ unfold mu, col, B; cbn [l_B l_Q nth]; vred. lra. }
    rewrite turn_id; cbn [l_k l_B l_Q l_change plus Nat.sub length B Nat.ltb Nat.leb]; fold B.
    2:{ intros j Hj; assert (C : j = 0%nat \/ j = 1%nat \/ j = 2%nat) by lia; destruct C as [-> | [-> | ->]]; unfold mu, col, B; cbn [l_B l_Q nth]; vred;
        apply Rabs_le; split; lra. }
    2:{ unfold mu, col, B; cbn [l_B l_Q nth]; vred. lra. }
    destruct more; reflexivity.
  - split; [split; [reflexivity|repeat constructor]|split].
    + intros i j Hi Hj N. destruct i as [|[|[|[|i]]]]; destruct j as [|[|[|[|j]]]]; try lia; unfold inner; cbn; lra.
    + intros i r Hi Hr; destruct i as [|[|[|[|i]]]]; destruct r as [|[|[|[|r]]]]; try lia; cbn; lra.
  - unfold inner; cbn; lra.
  - rewrite Rabs_left; lra.
Qed.
Print Assumptions C42_four_size_reduced_refuted.

(** From five vectors on it need not return at all: there are independent vectors, the rows of a
    Cholesky factor, for which no number of turns of the loop is enough. *)
Theorem C42_termination_refuted :
  forall n, (5 <= n)%nat -> exists B, matrix n n B /\ independent n B /\
    (forall i j, (i < j < n)%nat -> at2 0 B i j = 0) /\ (forall i, (i < n)%nat -> 0 < at2 0 B i i) /\
    (forall fuel, lll fuel B = Raise LoopForever) /\
    (forall st, lll_reaches (3 / 4) B st -> (l_k st < n)%nat).
Proof.
  intros n Hn. exists (bad n).
  assert (M : matrix n n (bad n)) by apply matrix_mk2.
  assert (T : forall i j, (i < j < n)%nat -> at2 0 (bad n) i j = 0) by apply bad_triangular.
  assert (D : forall i, (i < n)%nat -> 0 < at2 0 (bad n) i i) by apply bad_diagonal.
  split; [exact M|]. split; [apply triangular_independent; [exact T|intros i Hi; specialize (D i Hi); lra]|].
  split; [exact T|]. split; [exact D|]. split; [intros fuel; apply bad_loops, Hn|].
  intros st Rs. destruct (Nat.lt_ge_cases (l_k st) n) as [L|G]; [exact L|]. exfalso.
  destruct (reaches_wf n _ _ _ M Rs) as ([L _] & _).
  assert (E : exists fuel, lll fuel (bad n) = lll_loop (3 / 4) 0 st).
  { clear G L. unfold lll. assert (Q : forall st, lll_reaches (3 / 4) (bad n) st -> forall fuel', exists fuel, lll_loop (3 / 4) fuel (lll_init (bad n)) = lll_loop (3 / 4) fuel' st).
    { clear. intros st Rs. induction Rs as [|st Rs IH Hk]; intros fuel'; [exists fuel'; reflexivity|].
      destruct (IH (S fuel')) as [fuel E]. exists fuel. rewrite E. cbn [lll_loop]. apply Nat.ltb_lt in Hk. rewrite Hk. reflexivity. }
    apply Q, Rs. }
  destruct E as [fuel E]. rewrite (bad_loops n fuel Hn) in E. cbn [lll_loop] in E.
  destruct (Nat.ltb_spec (l_k st) (length (l_B st))); [lia|discriminate].
Qed.
Print Assumptions C42_termination_refuted.

(** Three independent vectors exist, and the identity basis has an orthogonalisation, so the
    conclusions above are not empty. *)
Example C42_nonvacuous : matrix 3 3 [[1; 0; 0]; [5; 1; 0]; [7; 3; 1]] /\ independent 3 [[1; 0; 0]; [5; 1; 0]; [7; 3; 1]].
Proof.
  split; [split; [reflexivity|repeat constructor]|].
  intros c H h Hh. pose proof (H 0%nat ltac:(lia)) as H0; pose proof (H 1%nat ltac:(lia)) as H1; pose proof (H 2%nat ltac:(lia)) as H2.
  cbn in H0, H1, H2. destruct h as [|[|[|h]]]; [lra|lra|lra|lia].
Qed.
