(** RoundGram.v -- the matrix of inner products of the harmonic representatives in double precision. *)
From Coq Require Import Reals Lra Lia ZArith List Psatz.
From Flocq Require Import Core.
From Verif Require Import Base BaseProofs CombinatorialModel SpecSimplex CombinatorialProofs
  DeltaModel SpecRips RipsProofs DeltaProofs DeltaFacts RealBase RealSum EMModel SpecEM LLLModel SpecLLL LLLProofs
  ToroidalModel ToroidalProofs SpecHarmonic HarmonicProofs SpecRound RoundBase RoundModel RoundProofs RoundTorusModel RoundTorusProofs RoundHarmonic.
Import ListNotations.
Local Open Scope R_scope.

Lemma list_mk1 (l : list R) : l = mk1 (length l) (fun i => nth i l 0).
Proof.
  apply (nth_ext _ _ 0 0); [rewrite length_mk1; reflexivity|]. intros i Hi. rewrite nth_mk1 by exact Hi. reflexivity.
Qed.

Section GramD.
Variables (sum_ : list R -> R) (dot_ : list R -> list R -> R) (dm : list (list R)) (t : R) (N : nat).
Hypothesis Hsum : forall l, added_up l (sum_ l).
Hypothesis Hdot : dot_sound dot_.
Hypothesis Hsq : square dm.
Notation n := (length dm).
Hypothesis HN : (n <= N)%nat.
Hypothesis Hn : (Z.of_nat n <= 65536)%Z.
Notation T := (combinatorial_number_system_table N 2).
Notation closeb := (closeb Rltb dm t).
Notation M := (INR (comb n 2)).

Lemma sum_pairs_le F c : (forall i j, (i < j < n)%nat -> F i j <= c) -> sumn n (fun j => sumn j (fun i => F i j)) <= M * c.
Proof.
  intros H. rewrite <- sumn_const_R, (sum_ranks n (fun _ => c)). apply sumn_le; intros j Hj. apply sumn_le; intros i Hi. apply H; lia.
Qed.

Lemma gram_entry_d junk W vs gm a b v w (q p : nat -> nat -> R) H e :
  make_inner_product Rltb junk dm t T = Ok W -> gram_matrix_d sum_ dot_ vs (fst W) = Ok gm ->
  nth_error vs a = Some v -> nth_error vs b = Some w ->
  length v = comb n 2 -> Forall double v -> length w = comb n 2 -> Forall double w -> 0 <= H -> 0 <= e ->
  (forall i j, (i < j < n)%nat -> closeb i j = true -> Rabs (q i j) <= H /\ Rabs (nth (rank [i; j]) v 0 - q i j) <= e) ->
  (forall i j, (i < j < n)%nat -> closeb i j = true -> Rabs (p i j) <= H /\ Rabs (nth (rank [i; j]) w 0 - p i j) <= e) ->
  Rabs (at2 0 gm a b - edge_sum dm t (fun i j => q i j * p i j)) <=
    M * (2 * H * e + e ^ 2) + M * bpow radix2 (-52) * (M * (H + e) ^ 2) + M * bpow radix2 (-1074).
Proof.
  intros EW EG Ha Hb Lv Dv Lw Dw H0 e0 Hq Hp.
  assert (EWe : fst W = mkSparse (comb n 2) (comb n 2) (flat_map entw (rl Rltb dm t 1)) /\ transpose (fst W) = fst W).
  { rewrite (inner_product_ok Rltb junk dm t N 2 Hsq HN) in EW by (lia || (pose proof (comb_2 n); nia)). apply Ok_inj in EW. subst W. cbn [fst]. split; [reflexivity|].
    unfold transpose; cbn [s_rows s_cols s_entries]. f_equal. clear. induction (rl Rltb dm t 1) as [|s l IH]; [reflexivity|]. cbn [flat_map]; rewrite map_app, IH; reflexivity. }
  destruct EWe as [EWe ET]. destruct (weights_d sum_ dm t Hsum (fst W) v EWe Lv Dv) as (u & Eu & Lu & Hu).
  assert (Du : Forall double u).
  { unfold matvec_d in Eu. destruct (_ =? _)%nat; [|discriminate]. apply Ok_inj in Eu. subst u. unfold mk1. apply Forall_map, Forall_forall. intros r _.
    apply (added_double _ _ (Hsum _)). apply Forall_map, Forall_forall. intros; apply dbl_dbl. }
  assert (EE : at2 0 gm a b = dot_ u w).
  { unfold gram_matrix_d in EG. destruct (map_res_nth _ _ _ _ _ EG Ha) as (row & Hrow & Erow). destruct (map_res_nth _ _ _ _ _ Erow Hb) as (z & Hz & Ez).
    rewrite ET, Eu in Ez. cbn [bind] in Ez. apply Ok_inj in Ez. unfold at2. rewrite (nth_error_nth _ _ [] Hrow), (nth_error_nth _ _ 0 Hz). symmetry; exact Ez. }
  assert (NB : (Z.of_nat (comb n 2) <= 2 ^ 50)%Z) by (pose proof (comb_2 n); nia).
  destruct (dot_close dot_ (comb n 2) (fun i => nth i u 0) (fun i => nth i w 0) Hdot NB) as [_ D].
  { intros i Hi. rewrite Forall_forall in Du, Dw. split; [apply Du, nth_In; lia|apply Dw, nth_In; lia]. }
  assert (EU : mk1 (comb n 2) (fun i => nth i u 0) = u) by (rewrite <- Lu; symmetry; apply list_mk1).
  assert (EV : mk1 (comb n 2) (fun i => nth i w 0) = w) by (rewrite <- Lw; symmetry; apply list_mk1).
  rewrite EU, EV, !sum_ranks in D.
  assert (S1 : sumn n (fun j => sumn j (fun i => Rabs (nth (rank [i; j]) u 0 * nth (rank [i; j]) w 0))) <= M * (H + e) ^ 2).
  { apply sum_pairs_le. intros i j Hij. rewrite (Hu i j Hij), Rabs_mult. destruct (closeb i j) eqn:Cl.
    2: { rewrite Rabs_R0, Rmult_0_l. apply pow2_ge_0. }
    destruct (Hq i j Hij Cl) as [Q1 Q2]. destruct (Hp i j Hij Cl) as [P1 P2].
    assert (A1 : Rabs (nth (rank [i; j]) v 0) <= H + e).
    { replace (nth (rank [i; j]) v 0) with ((nth (rank [i; j]) v 0 - q i j) + q i j) by ring. eapply Rle_trans; [apply Rabs_triang|]. lra. }
    assert (A2 : Rabs (nth (rank [i; j]) w 0) <= H + e).
    { replace (nth (rank [i; j]) w 0) with ((nth (rank [i; j]) w 0 - p i j) + p i j) by ring. eapply Rle_trans; [apply Rabs_triang|]. lra. }
    replace ((H + e) ^ 2) with ((H + e) * (H + e)) by ring. apply Rmult_le_compat; try apply Rabs_pos; assumption. }
  assert (S2 : Rabs (sumn n (fun j => sumn j (fun i => nth (rank [i; j]) u 0 * nth (rank [i; j]) w 0)) - edge_sum dm t (fun i j => q i j * p i j)) <= M * (2 * H * e + e ^ 2)).
  { rewrite (edge_sum_closeb dm t N 2 Hsq HN ltac:(lia)), <- sumn_sub. eapply Rle_trans; [apply sumn_abs|].
    eapply Rle_trans; [apply (sumn_le n _ (fun j => sumn j (fun i => Rabs (nth (rank [i; j]) u 0 * nth (rank [i; j]) w 0 - (if closeb i j then q i j * p i j else 0)))))|].
    { intros j Hj. rewrite <- sumn_sub. apply sumn_abs. }
    apply sum_pairs_le. intros i j Hij. rewrite (Hu i j Hij). destruct (closeb i j) eqn:Cl.
    2: { replace (0 * nth (rank [i; j]) w 0 - 0) with 0 by ring. rewrite Rabs_R0. pose proof (pow2_ge_0 e). nra. }
    destruct (Hq i j Hij Cl) as [Q1 Q2]. destruct (Hp i j Hij Cl) as [P1 P2].
    set (x := nth (rank [i; j]) v 0) in *. set (y := nth (rank [i; j]) w 0) in *.
    replace (x * y - q i j * p i j) with ((x - q i j) * (y - p i j) + ((x - q i j) * p i j + q i j * (y - p i j))) by ring.
    eapply Rle_trans; [apply Rabs_triang|]. eapply Rle_trans; [apply Rplus_le_compat_l, Rabs_triang|]. rewrite !Rabs_mult.
    assert (R1 : Rabs (x - q i j) * Rabs (y - p i j) <= e * e) by (apply Rmult_le_compat; try apply Rabs_pos; assumption).
    assert (R2 : Rabs (x - q i j) * Rabs (p i j) <= e * H) by (apply Rmult_le_compat; try apply Rabs_pos; assumption).
    assert (R3 : Rabs (q i j) * Rabs (y - p i j) <= H * e) by (apply Rmult_le_compat; try apply Rabs_pos; assumption).
    replace (2 * H * e + e ^ 2) with (e * e + (e * H + H * e)) by ring. lra. }
  rewrite EE. set (X := sumn n (fun j => sumn j (fun i => nth (rank [i; j]) u 0 * nth (rank [i; j]) w 0))) in *.
  replace (dot_ u w - edge_sum dm t (fun i j => q i j * p i j)) with ((dot_ u w - X) + (X - edge_sum dm t (fun i j => q i j * p i j))) by ring.
  eapply Rle_trans; [apply Rabs_triang|].
  assert (S3 : M * bpow radix2 (-52) * sumn n (fun j => sumn j (fun i => Rabs (nth (rank [i; j]) u 0 * nth (rank [i; j]) w 0))) <= M * bpow radix2 (-52) * (M * (H + e) ^ 2)).
  { apply Rmult_le_compat_l; [|exact S1]. apply Rmult_le_pos; [apply pos_INR|apply bpow_ge_0]. }
  lra.
Qed.

(** The harmonic representatives computed for the integer cocycles [c]. *)
Lemma gram_d lsqr junk M0 W etas hf gm (eta : nat -> nat -> nat -> Z) (integral : nat -> nat -> R) K B :
  (forall A b, length (lsqr A b) = s_cols A /\ Forall double (lsqr A b)) ->
  make_delta0 Rltb junk dm t T = Ok M0 -> make_inner_product Rltb junk dm t T = Ok W ->
  Forall (fun c => length c = comb n 2) etas ->
  map_res (fun c => integrate_harmonic_representative_d sum_ lsqr c M0 (snd W)) etas = Ok hf ->
  gram_matrix_d sum_ dot_ (map fst hf) (fst W) = Ok gm ->
  (forall h c, nth_error etas h = Some c -> forall i j, (i < j < n)%nat -> nth (rank [i; j]) c 0%Z = eta h i j) ->
  (forall h a, nth_error hf h = Some a -> forall i, nth i (snd a) 0 = integral h i) ->
  0 <= K -> 0 <= B -> (forall h i j, (h < length etas)%nat -> (i < j < n)%nat -> Rabs (IZR (eta h i j)) <= K) ->
  (forall h i, (h < length etas)%nat -> (i < n)%nat -> Rabs (integral h i) <= B) ->
  forall h l, (h < length etas)%nat -> (l < length etas)%nat ->
  Rabs (at2 0 gm h l - edge_sum dm t (fun i j => (IZR (eta h i j) - (integral h i - integral h j)) * (IZR (eta l i j) - (integral l i - integral l j)))) <=
  gram_error n K B.
Proof.
  intros Hl E0 EW Fe Eh EG Heta Hint K0 B0 HK HB h l Lh Ll.
  set (H := K + 2 * B). set (e := bpow radix2 (-50) * H + bpow radix2 (-1073)).
  assert (One : forall h, (h < length etas)%nat -> exists v, nth_error (map fst hf) h = Some v /\ length v = comb n 2 /\ Forall double v /\
    forall i j, (i < j < n)%nat -> closeb i j = true -> Rabs (IZR (eta h i j) - (integral h i - integral h j)) <= H /\
      Rabs (nth (rank [i; j]) v 0 - (IZR (eta h i j) - (integral h i - integral h j))) <= e).
  { clear h l Lh Ll. intros h Lh. destruct (nth_error etas h) as [c|] eqn:Ec; [|apply nth_error_None in Ec; lia].
    destruct (map_res_nth _ _ _ _ _ Eh Ec) as ([hd g] & Hh & Ei). exists hd. split; [rewrite nth_error_map, Hh; reflexivity|].
    assert (Lc : length c = comb n 2) by (rewrite Forall_forall in Fe; apply Fe, (nth_error_In _ _ Ec)).
    destruct (integrate_d sum_ dm t N Hsum Hsq HN lsqr c junk M0 W hd g Hn Hl E0 EW Lc Ei) as (Lg & Dg & Lhd & Dhd & hx & EH & Lhx & Err).
    split; [exact Lhd|]. split; [exact Dhd|]. intros i j Hij Cl.
    destruct (integrate_ok dm t N 2 Hsq HN ltac:(lia) (constant_lsqr g) c junk M0 W Hn (constant_lsqr_length g) E0 EW Lc) as (A & b & f & h' & EH' & EA & Eb & Ef & Lf & Lh' & Hh').
    rewrite EH in EH'. apply Ok_inj in EH'. injection EH' as <- <-.
    destruct (Err K B K0) with (i := i) (j := j) as [P1 P2]; try lia.
    { intros i' j' Hij'. rewrite (Heta h c Ec i' j' Hij'). apply HK; assumption. }
    { intros i' Hi'. pose proof (Hint h (hd, g) Hh i') as Q; cbn [snd] in Q. rewrite Q. apply HB; assumption. }
    unfold upper in P1, P2. destruct (Nat.ltb_spec i j) as [_|]; [|lia]. cbn [andb] in P1, P2. rewrite Cl in P1, P2.
    rewrite (Hh' i j Hij), Cl, (Heta h c Ec i j Hij) in P1, P2. pose proof (Hint h (hd, g) Hh i) as Q1. pose proof (Hint h (hd, g) Hh j) as Q2. cbn [snd] in Q1, Q2.
    rewrite Q1, Q2 in P1, P2. split; [exact P1|exact P2]. }
  destruct (One h Lh) as (v & Hv & Lv & Dv & Pv). destruct (One l Ll) as (w & Hw & Lw & Dw & Pw).
  assert (H0 : 0 <= H) by (unfold H; lra). pose proof (bpow_gt_0 radix2 (-50)) as U50. pose proof (bpow_gt_0 radix2 (-1073)) as U73.
  assert (e0 : 0 <= e) by (unfold e; assert (0 <= bpow radix2 (-50) * H) by (apply Rmult_le_pos; lra); lra).
  eapply Rle_trans; [apply (gram_entry_d junk W (map fst hf) gm h l v w _ _ H e EW EG Hv Hw Lv Dv Lw Dw H0 e0 Pv Pw)|].
  assert (e1 : e <= bpow radix2 (-49) * (H + 1)).
  { unfold e. assert (bpow radix2 (-1073) <= bpow radix2 (-50)) by (apply bpow_le; lia). change (bpow radix2 (-49)) with (bpow radix2 (1 + -50)). rewrite bpow_plus. change (bpow radix2 1) with 2. nra. }
  assert (T1 : bpow radix2 (-1074) <= bpow radix2 (-52)) by (apply bpow_le; lia). pose proof (bpow_gt_0 radix2 (-1074)) as T0.
  assert (V : bpow radix2 (-52) = / 4503599627370496) by (pow2; lra). assert (V1 : bpow radix2 (-49) = / 562949953421312) by (pow2; lra). assert (V2 : bpow radix2 (-47) = / 140737488355328) by (pow2; lra).
  unfold gram_error. fold H. rewrite V, V1, V2 in *. clear V V1 V2 U50 U73. set (tiny := bpow radix2 (-1074)) in *. clearbody e tiny.
  pose proof (comb_2 n) as C2. assert (M2 : 2 * M <= INR n ^ 2).
  { replace (2 * M) with (INR (2 * comb n 2)) by (rewrite mult_INR; reflexivity). replace (INR n ^ 2) with (INR (n * n)) by (rewrite mult_INR; ring). apply le_INR. nia. }
  assert (M0' : 0 <= M) by apply pos_INR.
  assert (N4 : 2 * M <= INR n ^ 4 /\ 4 * M ^ 2 <= INR n ^ 4).
  { split.
    - destruct (Nat.eq_dec n 0) as [Z|Z]; [rewrite Z in *; cbn; lra|]. assert (1 <= INR n) by (apply (le_INR 1); lia).
      assert (1 <= INR n ^ 2) by (replace 1 with (1 ^ 2) by ring; apply pow_incr; lra). replace (INR n ^ 4) with (INR n ^ 2 * INR n ^ 2) by ring. nra.
    - replace (4 * M ^ 2) with ((2 * M) ^ 2) by ring. replace (INR n ^ 4) with ((INR n ^ 2) ^ 2) by ring. apply pow_incr. lra. }
  set (n4 := INR n ^ 4) in *. set (m := M) in *. clearbody n4 m. clear - H0 e0 e1 T1 T0 M0' N4. destruct N4 as [N1 N2].
  set (Q := H + 1) in *. assert (Q1 : 1 <= Q) by (unfold Q; lra). assert (HQ : H <= Q) by (unfold Q; lra). clearbody Q.
  assert (Q2 : 1 <= Q ^ 2) by (replace 1 with (1 ^ 2) by ring; apply pow_incr; lra).
  assert (A1 : 2 * H * e + e ^ 2 <= 3 * / 562949953421312 * Q ^ 2).
  { assert (H * e <= Q * (/ 562949953421312 * Q)) by (apply Rmult_le_compat; lra). assert (e * e <= / 562949953421312 * Q * (/ 562949953421312 * Q)) by (apply Rmult_le_compat; lra).
    replace (Q ^ 2) with (Q * Q) in * by ring. nra. }
  assert (A2 : (H + e) ^ 2 <= 4 * Q ^ 2) by (replace (4 * Q ^ 2) with ((2 * Q) ^ 2) by ring; apply pow_incr; lra).
  assert (B1 : m * (2 * H * e + e ^ 2) <= n4 * / 2 * (3 * / 562949953421312 * Q ^ 2)).
  { apply Rmult_le_compat; [lra| |lra|exact A1]. assert (0 <= H * e) by (apply Rmult_le_pos; lra). pose proof (pow2_ge_0 e). lra. }
  assert (B2 : m * / 4503599627370496 * (m * (H + e) ^ 2) <= / 4503599627370496 * (n4 * / 4) * (4 * Q ^ 2)).
  { replace (m * / 4503599627370496 * (m * (H + e) ^ 2)) with (/ 4503599627370496 * m ^ 2 * (H + e) ^ 2) by ring.
    apply Rmult_le_compat; [|apply pow2_ge_0| |exact A2]. { apply Rmult_le_pos; [lra|apply pow2_ge_0]. } apply Rmult_le_compat_l; lra. }
  assert (B3 : m * tiny <= n4 * / 2 * (/ 4503599627370496 * Q ^ 2)).
  { apply Rmult_le_compat; lra. }
  assert (0 <= n4 * Q ^ 2) by (apply Rmult_le_pos; lra). lra.
Qed.
End GramD.
