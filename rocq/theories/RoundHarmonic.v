(** RoundHarmonic.v -- the harmonic representative computed in double precision. *)
From Coq Require Import Reals Lra Lia ZArith List Psatz.
From Flocq Require Import Core.
From Verif Require Import Base BaseProofs CombinatorialModel SpecSimplex CombinatorialProofs
  DeltaModel SpecRips RipsProofs DeltaProofs DeltaFacts RealBase RealSum EMModel SpecEM LLLModel SpecLLL LLLProofs
  ToroidalModel ToroidalProofs SpecHarmonic HarmonicProofs SpecRound RoundBase RoundModel RoundProofs RoundTorusModel RoundTorusProofs.
Import ListNotations.
Local Open Scope R_scope.

Lemma int_error z : Rabs (dbl (IZR z) - IZR z) <= bpow radix2 (-52) * Rabs (IZR z).
Proof.
  destruct (Z.eq_dec z 0) as [->|N]; [rewrite dbl_0, Rminus_0_r, Rabs_R0; lra|].
  assert (1 <= Rabs (IZR z)) by (rewrite <- abs_IZR; apply IZR_le; lia).
  pose proof (dbl_error (IZR z)) as E. pose proof (tiny_le (-1075) ltac:(lia)) as [_ T]. change (2 ^ 60)%Z with 1152921504606846976%Z in T.
  replace (bpow radix2 (-52)) with (2 * u53) by (rewrite u53_val; pow2; lra). rewrite u53_val in *. lra.
Qed.
Lemma added_one q s : added_up [q] s -> double q -> s = q.
Proof.
  intros H D. pose proof (added_error_sharp _ _ H ltac:(constructor; [exact D|constructor])) as E. unfold total in E. cbn [length Nat.sub pow map fold_right] in E.
  replace ((1 - 1) * (Rabs q + 0)) with 0 in E by ring. pose proof (Rabs_pos (s - (q + 0))) as P.
  assert (Z : Rabs (s - (q + 0)) = 0) by lra. destruct (Req_dec (s - (q + 0)) 0) as [|N]; [lra|]. apply Rabs_no_R0 in N. contradiction.
Qed.

Lemma total_sumn (l : list R) : total (map Rabs l) = sumn (length l) (fun r => Rabs (nth r l 0)).
Proof.
  unfold total. induction l as [|z l IHl] using rev_ind; [reflexivity|]. rewrite map_app, fold_right_app, app_length. cbn [map fold_right length]. rewrite Nat.add_1_r. cbn [sumn]. rewrite Rplus_0_r.
  rewrite (sumn_ext _ _ (fun r => Rabs (nth r l 0))) by (intros i Hi; rewrite app_nth1 by exact Hi; reflexivity). rewrite <- IHl. rewrite app_nth2, Nat.sub_diag by lia. cbn [nth].
  generalize (Rabs z). clear. intros a. induction (map Rabs l) as [|w l' IH]; cbn [fold_right]; [ring|]. rewrite IH. ring.
Qed.

Section HarmonicD.
Variables (sum_ : list R -> R) (dm : list (list R)) (t : R) (N : nat).
Hypothesis Hsum : forall l, added_up l (sum_ l).
Hypothesis Hsq : square dm.
Notation n := (length dm).
Hypothesis HN : (n <= N)%nat.
Hypothesis Hn : (Z.of_nat n <= 65536)%Z.
Notation T := (combinatorial_number_system_table N 2).
Notation closeb := (closeb Rltb dm t).

Lemma edge_sum_abs F : Rabs (edge_sum dm t F) <= edge_sum dm t (fun i j => Rabs (F i j)).
Proof.
  unfold edge_sum. eapply Rle_trans; [apply sumn_abs|]. apply sumn_le; intros j _. eapply Rle_trans; [apply sumn_abs|]. apply sumn_le; intros i _.
  destruct (Rlt_dec _ _); [lra|rewrite Rabs_R0; lra].
Qed.
Lemma edge_sum_le F G : (forall i j, (i < j < n)%nat -> F i j <= G i j) -> edge_sum dm t F <= edge_sum dm t G.
Proof.
  intros H. unfold edge_sum. apply sumn_le; intros j Hj. apply sumn_le; intros i Hi. destruct (Rlt_dec _ _); [apply H; lia|lra].
Qed.
Lemma sumn_grow m k F : (m <= k)%nat -> (forall i, 0 <= F i) -> sumn m F <= sumn k F.
Proof. intros H P. induction H as [|k H IH]; [lra|]. cbn [sumn]. specialize (P k). lra. Qed.
Lemma edge_sum_all F : (forall i j, 0 <= F i j) -> edge_sum dm t F <= sumn n (fun j => sumn n (fun i => F i j)).
Proof.
  intros H. unfold edge_sum. apply sumn_le; intros j Hj. apply Rle_trans with (sumn j (fun i => F i j)).
  - apply sumn_le; intros i _. destruct (Rlt_dec _ _); [lra|apply H].
  - apply sumn_grow; [lia|intros; apply H].
Qed.
Lemma sumn_const_R k c : sumn k (fun _ => c) = INR k * c.
Proof. induction k as [|k IH]; [cbn; ring|]. cbn [sumn]. rewrite S_INR, IH. ring. Qed.
Lemma degree (y : nat -> R) : edge_sum dm t (fun i j => Rabs (y i - y j)) <= 2 * INR n * sumn n (fun i => Rabs (y i)).
Proof.
  eapply Rle_trans; [apply (edge_sum_le _ (fun i j => Rabs (y i) + Rabs (y j)))|].
  { intros i j _. replace (y i - y j) with (y i + - y j) by ring. eapply Rle_trans; [apply Rabs_triang|]. rewrite Rabs_Ropp. lra. }
  eapply Rle_trans; [apply edge_sum_all; intros i j; pose proof (Rabs_pos (y i)); pose proof (Rabs_pos (y j)); lra|].
  rewrite (sumn_ext n _ (fun j => sumn n (fun i => Rabs (y i)) + INR n * Rabs (y j))) by (intros j _; rewrite sumn_add, sumn_const_R; reflexivity).
  rewrite sumn_add, sumn_const_R, sumn_scal. lra.
Qed.

Lemma entw_key u e : In e (entw u) -> fst (fst e) = rank u.
Proof. intros [<-|[]]; reflexivity. Qed.
Lemma weights_d W (c : list R) : W = mkSparse (comb n 2) (comb n 2) (flat_map entw (rl Rltb dm t 1)) -> length c = comb n 2 -> Forall double c ->
  exists b, matvec_d sum_ W c = Ok b /\ length b = comb n 2 /\
    forall i j, (i < j < n)%nat -> nth (rank [i; j]) b 0 = if closeb i j then nth (rank [i; j]) c 0 else 0.
Proof.
  intros -> Lc Dc. unfold matvec_d. cbn [s_cols s_rows s_entries]. rewrite Lc, Nat.eqb_refl. eexists. split; [reflexivity|]. split; [apply length_mk1|].
  intros i j Hij. assert (Hs : simplex n 1 [i; j]) by (apply simplex2; exact Hij). pose proof (rank_lt_d n 1 _ Hs) as Hr. rewrite nth_mk1 by exact Hr.
  assert (Dn : forall k, double (nth k c 0)).
  { intros k. destruct (nth_in_or_default k c 0) as [I| ->]; [rewrite Forall_forall in Dc; apply Dc, I|exact double_0]. }
  destruct (closeb i j) eqn:Cl.
  - apply closeb_close in Cl. rewrite (block_in Rltb dm t 1 entw) by (apply entw_key || (apply rips1; [exact Hij|exact Cl])).
    cbn [entw map fst snd]. rewrite Rmult_1_l, (Dn (rank [i; j]) : dbl _ = _). apply (added_one _ _ (Hsum _)), Dn.
  - rewrite (block_out Rltb dm t 1 entw); [apply (added_nil _ (Hsum []))|apply entw_key|exact Hs|].
    intros Hin. apply rips1 in Hin; [|exact Hij]. apply closeb_close in Hin. congruence.
Qed.

Lemma size_P junk M0 W P : make_delta0 Rltb junk dm t T = Ok M0 -> make_inner_product Rltb junk dm t T = Ok W -> spmm (snd W) M0 = Ok P ->
  0 <= size P <= INR n ^ 2.
Proof.
  intros E0 EW EP. rewrite (delta0_ok Rltb junk dm t N 2 Hsq HN ltac:(lia) (edges_fit _ Hn)) in E0; apply Ok_inj in E0.
  rewrite (inner_product_ok Rltb junk dm t N 2 Hsq HN) in EW by (lia || (pose proof (comb_2 n); nia)). apply Ok_inj in EW. subst M0 W.
  unfold spmm in EP. cbn [snd s_cols s_rows s_entries] in EP. rewrite Nat.eqb_refl in EP. apply Ok_inj in EP. subst P.
  unfold size; cbn [s_entries].
  assert (Lr : (length (rl Rltb dm t 1) <= comb n 2)%nat).
  { rewrite <- (map_length rank), <- (seq_length (comb n 2) 0). apply NoDup_incl_length; [apply rl_keys|].
    intros r Hr. apply in_map_iff in Hr as (s & <- & Hs). apply in_seq. apply rl_simplex in Hs. pose proof (rank_lt_d n 1 s Hs). lia. }
  assert (G : forall l, (forall s, In s l -> In s (rl Rltb dm t 1)) ->
    total (map (fun e : nat * nat * Z => Rabs (IZR (snd e))) (flat_map (fun a : nat * nat * Z => map (fun b : nat * nat * Z => (fst (fst a), snd (fst b), (snd a * snd b)%Z))
      (filter (fun b : nat * nat * Z => (fst (fst b) =? snd (fst a))%nat) (flat_map ent0 (rl Rltb dm t 1)))) (flat_map entw l))) = 2 * INR (length l)).
  { induction l as [|s l IH]; intros H; [cbn; ring|]. cbn [flat_map]. rewrite flat_map_app, map_app, total_app, IH by (intros s' Hs'; apply H; right; exact Hs').
    cbn [entw flat_map fst snd]. rewrite app_nil_r. pose proof (H s (or_introl eq_refl)) as Hs.
    rewrite (block_in Rltb dm t 1 ent0) by (apply ent0_key || exact Hs). pose proof (rl_simplex Rltb dm t 1 s Hs) as Sx.
    destruct Sx as (L & _). destruct s as [|i [|j [|]]]; try discriminate L. cbn [ent0 map fst snd length]. rewrite S_INR. unfold total; cbn [fold_right snd].
    change (1 * 1)%Z with 1%Z. change (1 * -1)%Z with (-1)%Z. rewrite Rabs_R1, Rabs_left by lra. lra. }
  rewrite (G _ (fun s H => H)). pose proof (pos_INR (length (rl Rltb dm t 1))). split; [lra|].
  apply le_INR in Lr. pose proof (comb_2 n) as C2. assert (2 * INR (comb n 2) <= INR n ^ 2).
  { replace (2 * INR (comb n 2)) with (INR (2 * comb n 2)) by (rewrite mult_INR; reflexivity). replace (INR n ^ 2) with (INR (n * n)) by (rewrite mult_INR; ring). apply le_INR. nia. }
  lra.
Qed.

Lemma harmonic_d lsqr tol (c : list Z) junk M0 W hd g (eta : nat -> nat -> Z) K B :
  (forall A b, length (lsqr A b) = s_cols A) -> nearly_least_squares tol lsqr -> 0 <= tol ->
  make_delta0 Rltb junk dm t T = Ok M0 -> make_inner_product Rltb junk dm t T = Ok W -> length c = comb n 2 ->
  integrate_harmonic_representative_d sum_ lsqr c M0 (snd W) = Ok (hd, g) ->
  (forall i j, (i < j < n)%nat -> nth (rank [i; j]) c 0%Z = eta i j) ->
  0 <= K -> (forall i j, (i < j < n)%nat -> Rabs (IZR (eta i j)) <= K) -> (forall i, (i < n)%nat -> Rabs (nth i g 0) <= B) ->
  nearly_harmonic dm t eta (fun i => nth i g 0) (harmonic_error n tol K B).
Proof.
  intros Hl Hls Htol E0 EW Lc EI Heta K0 HK HB y.
  set (cd := map (fun z => dbl (IZR z)) c). assert (Lcd : length cd = comb n 2) by (unfold cd; rewrite map_length; exact Lc).
  assert (Dcd : Forall double cd) by (apply Forall_map, Forall_forall; intros; apply dbl_dbl).
  assert (Hcd : forall r, (r < comb n 2)%nat -> nth r cd 0 = dbl (IZR (nth r c 0%Z))) by (intros r Hr; unfold cd; rewrite (nth_map_lt _ _ _ 0%Z) by lia; reflexivity).
  assert (EWe : snd W = mkSparse (comb n 2) (comb n 2) (flat_map entw (rl Rltb dm t 1))).
  { rewrite (inner_product_ok Rltb junk dm t N 2 Hsq HN) in EW by (lia || (pose proof (comb_2 n); nia)). apply Ok_inj in EW. subst W. reflexivity. }
  destruct (weights_d (snd W) cd EWe Lcd Dcd) as (b & Eb & Lb & Hb).
  unfold integrate_harmonic_representative_d in EI. fold cd in EI.
  assert (EP : exists P, spmm (snd W) M0 = Ok P /\ s_rows P = comb n 2 /\ s_cols P = n).
  { pose proof E0 as E0'. rewrite (delta0_ok Rltb junk dm t N 2 Hsq HN ltac:(lia) (edges_fit _ Hn)) in E0'; apply Ok_inj in E0'. subst M0.
    unfold spmm. rewrite EWe; cbn [s_rows s_cols]. rewrite Nat.eqb_refl. eexists; split; [reflexivity|]. split; reflexivity. }
  destruct EP as (P & EP & RP & CP). rewrite EP in EI; cbn [bind] in EI. rewrite Eb in EI; cbn [bind] in EI.
  set (g' := lsqr P b) in *. destruct (matvec_d sum_ M0 g') as [d|]; cbn [bind] in EI; [|discriminate]. injection EI as _ <-.
  assert (Lg : length g' = n) by (unfold g'; rewrite Hl; exact CP).
  set (yl := map y (seq 0 n)). assert (Lyl : length yl = n) by (unfold yl; rewrite map_length, seq_length; reflexivity).
  assert (Hyl : forall i, (i < n)%nat -> nth i yl 0 = y i).
  { intros i Hi. unfold yl. rewrite (nth_map_lt _ _ _ 0%nat) by (rewrite seq_length; exact Hi). rewrite seq_nth by exact Hi. reflexivity. }
  destruct (P_apply dm t N 2 Hsq HN ltac:(lia) Hn junk M0 W E0 EW P g' EP Lg) as (u & Eu & Lu & Hu).
  destruct (P_apply dm t N 2 Hsq HN ltac:(lia) Hn junk M0 W E0 EW P yl EP Lyl) as (v & Ev & Lv & Hv).
  change (carrier Rring) with R in *. pose proof (Hls P b yl u v (eq_trans Lb (eq_sym RP)) (eq_trans Lyl (eq_sym CP)) Eu Ev) as H. rewrite Lb in H.
  set (Y := sumn n (fun i => Rabs (y i))). assert (Y0 : 0 <= Y) by (apply sumn_nonneg; intros; apply Rabs_pos).
  assert (EY : total (map Rabs yl) = Y) by (rewrite total_sumn, Lyl; apply sumn_ext; intros i Hi; rewrite Hyl by exact Hi; reflexivity).
  assert (Tg : total (map Rabs g') <= INR n * B) by (rewrite total_sumn, Lg, <- sumn_const_R; apply sumn_le; exact HB).
  assert (SP : 0 <= size P <= INR n ^ 2) by (apply (size_P junk M0 W P); assumption).
  assert (HR : forall i j, (i < j < n)%nat -> (rank [i; j] < comb n 2)%nat) by (intros i j Hij; apply (rank_lt_d n 1), simplex2, Hij).
  pose proof (bpow_gt_0 radix2 (-52)) as U0. set (u52 := bpow radix2 (-52)) in *. assert (U1 : u52 <= 1) by (change 1 with (bpow radix2 0); apply bpow_le; lia).
  assert (Cz : forall i j, (i < j < n)%nat -> Rabs (nth (rank [i; j]) cd 0 - IZR (eta i j)) <= u52 * K /\ Rabs (nth (rank [i; j]) cd 0) <= 2 * K).
  { intros i j Hij. rewrite Hcd by (apply HR, Hij). rewrite (Heta i j Hij). specialize (HK i j Hij). pose proof (int_error (eta i j)) as E.
    assert (A : Rabs (dbl (IZR (eta i j)) - IZR (eta i j)) <= u52 * K) by (eapply Rle_trans; [exact E|]; apply Rmult_le_compat_l; lra). split; [exact A|].
    replace (dbl (IZR (eta i j))) with ((dbl (IZR (eta i j)) - IZR (eta i j)) + IZR (eta i j)) by ring. eapply Rle_trans; [apply Rabs_triang|]. nra. }
  assert (Tb : total (map Rabs b) <= 2 * INR n ^ 2 * K).
  { rewrite total_sumn, Lb, sum_ranks. apply Rle_trans with (sumn n (fun j => sumn n (fun i => 2 * K))).
    - apply sumn_le; intros j Hj. apply Rle_trans with (sumn j (fun _ => 2 * K)); [|apply sumn_grow; [lia|intros; lra]].
      apply sumn_le; intros i Hi. rewrite (Hb i j) by lia. destruct (closeb i j); [apply Cz; lia|rewrite Rabs_R0; lra].
    - rewrite !sumn_const_R. right. cbn [pow]. ring. }
  assert (Hin : inner (comb n 2) v (vsub b u) = edge_sum dm t (fun i j => (nth (rank [i; j]) cd 0 - (nth i g' 0 - nth j g' 0)) * (y i - y j))).
  { rewrite (inner_edges dm v (vsub b u)), (edge_sum_closeb dm t N 2 Hsq HN ltac:(lia)). apply sumn_ext; intros j Hj; apply sumn_ext; intros i Hi. rewrite nth_vsub by (exact (eq_trans Lb (eq_sym Lu))).
    pose proof (Hb i j ltac:(lia)) as B1. pose proof (Hu i j ltac:(lia)) as B2. pose proof (Hv i j ltac:(lia)) as B3. change (carrier Rring) with R in *. rewrite B1, B2, B3. rewrite !Hyl by lia. destruct (closeb i j); ring. }
  rewrite Hin, EY in H. fold g' in H.
  set (F := edge_sum dm t (fun i j => (nth (rank [i; j]) cd 0 - (nth i g' 0 - nth j g' 0)) * (y i - y j))) in *.
  assert (D : Rabs (edge_sum dm t (fun i j => (IZR (eta i j) - (nth i g' 0 - nth j g' 0)) * (y i - y j)) - F) <= u52 * K * (2 * INR n * Y)).
  { replace (edge_sum dm t (fun i j => (IZR (eta i j) - (nth i g' 0 - nth j g' 0)) * (y i - y j)) - F)
      with (edge_sum dm t (fun i j => (IZR (eta i j) - nth (rank [i; j]) cd 0) * (y i - y j))).
    2: { unfold F. rewrite (edge_sum_ext dm t N 2 Hsq HN ltac:(lia) (fun i j => (IZR (eta i j) - (nth i g' 0 - nth j g' 0)) * (y i - y j))
           (fun i j => (IZR (eta i j) - nth (rank [i; j]) cd 0) * (y i - y j) + (nth (rank [i; j]) cd 0 - (nth i g' 0 - nth j g' 0)) * (y i - y j))) by (intros; ring).
         rewrite edge_sum_add. ring. }
    eapply Rle_trans; [apply edge_sum_abs|]. apply Rle_trans with (u52 * K * edge_sum dm t (fun i j => Rabs (y i - y j))).
    - rewrite <- edge_sum_scal. apply edge_sum_le; intros i j Hij. rewrite Rabs_mult. apply Rmult_le_compat_r; [apply Rabs_pos|]. rewrite Rabs_minus_sym. apply (Cz i j Hij).
    - apply Rmult_le_compat_l; [nra|]. apply degree. }
  match goal with |- Rabs ?G <= _ => set (G0 := G) in * end.
  assert (Rabs G0 <= Rabs (G0 - F) + Rabs F) by (replace G0 with ((G0 - F) + F) at 1 by ring; apply Rabs_triang).
  assert (B0 : 0 <= total (map Rabs g')) by apply total_abs_nonneg. pose proof (total_abs_nonneg b) as B1. pose proof (pos_INR n) as Pn.
  assert (S2 : (1 + size P) ^ 2 <= (1 + INR n ^ 2) ^ 2) by (apply pow_incr; lra).
  assert (Q : tol * (1 + size P) ^ 2 * (total (map Rabs b) + total (map Rabs g') + 1) * Y <= tol * (1 + INR n ^ 2) ^ 2 * (2 * INR n ^ 2 * K + INR n * B + 1) * Y).
  { apply Rmult_le_compat_r; [exact Y0|]. apply Rmult_le_compat; [apply Rmult_le_pos; [exact Htol|apply pow2_ge_0]|lra|apply Rmult_le_compat_l; assumption|lra]. }
  fold Y. unfold harmonic_error. change (bpow radix2 (-51)) with (bpow radix2 (1 + -52)). rewrite bpow_plus. fold u52. change (bpow radix2 1) with 2.
  set (Z := tol * (1 + INR n ^ 2) ^ 2 * (2 * INR n ^ 2 * K + INR n * B + 1)) in *.
  replace ((Z + 2 * u52 * INR n * K) * Y) with (Z * Y + u52 * K * (2 * INR n * Y)) by ring. lra.
Qed.
End HarmonicD.
