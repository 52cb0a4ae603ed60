(** LeastSquares.v -- a function that meets the assumption [least_squares] made of scipy's lsqr
    (so that the assumption is not contradictory). *)
From Verif Require Import Base BaseProofs DeltaModel RealBase RealSum EMModel LLLModel SpecLLL LLLProofs SpecHarmonic
  RipsProofs DeltaProofs DeltaFacts HarmonicProofs.
Local Open Scope R_scope.

Section Solve.
Variables (r : nat) (a : nat -> nat -> R).  (* column, row *)
Definition dotf (u v : nat -> R) : R := sumn r (fun i => u i * v i).
Definition apply_cols (m : nat) (y : nat -> R) (i : nat) : R := sumn m (fun c => y c * a c i).

(** Coefficients of the projection of [b] on the span of the first [m] columns. *)
Fixpoint solve (m : nat) (b : nat -> R) : nat -> R :=
  match m with
  | 0%nat => fun _ => 0
  | S m' =>
      let xb := solve m' b in
      let y := solve m' (a m') in
      let q := fun i => a m' i - apply_cols m' y i in
      if Req_EM_T (dotf q q) 0 then fun c => if (c =? m')%nat then 0 else xb c
      else let s := dotf b q / dotf q q in fun c => if (c =? m')%nat then s else xb c - s * y c
  end.

Lemma dotf_comb m u y : dotf u (apply_cols m y) = sumn m (fun c => y c * dotf u (a c)).
Proof.
  unfold dotf, apply_cols. rewrite (sumn_ext r _ (fun i => sumn m (fun c => y c * (u i * a c i)))).
  - rewrite sumn_swap. apply sumn_ext; intros c _; apply sumn_scal.
  - intros i _. rewrite <- sumn_scal. apply sumn_ext; intros c _; ring.
Qed.

Lemma solve_orthogonal m : forall b c, (c < m)%nat -> dotf (fun i => b i - apply_cols m (solve m b) i) (a c) = 0.
Proof.
  induction m as [|m IH]; intros b c Hc; [lia|].
  set (xb := solve m b). set (y := solve m (a m)). set (q := fun i => a m i - apply_cols m y i).
  assert (Hq : forall c, (c < m)%nat -> dotf q (a c) = 0) by (intros d Hd; apply (IH (a m) d Hd)).
  assert (Hr : forall c, (c < m)%nat -> dotf (fun i => b i - apply_cols m xb i) (a c) = 0) by (intros d Hd; apply (IH b d Hd)).
  assert (Same : forall g (s : R) i, apply_cols (S m) (fun d => if (d =? m)%nat then s else g d) i = apply_cols m g i + s * a m i).
  { intros g s i. unfold apply_cols; cbn [sumn]. rewrite Nat.eqb_refl. f_equal. apply sumn_ext; intros d Hd.
    rewrite (proj2 (Nat.eqb_neq d m)) by lia; reflexivity. }
  assert (Sub : forall u v, dotf (fun i => u i - v i) (a m) = dotf u (a m) - dotf v (a m)).
  { intros u v; unfold dotf; rewrite <- sumn_sub; apply sumn_ext; intros; ring. }
  assert (QQ : dotf q (a m) = dotf q q).
  { assert (Z0 : dotf q (apply_cols m y) = 0) by (rewrite dotf_comb; apply sumn_0; intros d Hd; rewrite (Hq d Hd); ring).
    replace (dotf q (a m)) with (dotf q q + dotf q (apply_cols m y)); [lra|]. unfold dotf; rewrite <- sumn_add. apply sumn_ext; intros i _; unfold q; ring. }
  assert (RQ : dotf (fun i => b i - apply_cols m xb i) (a m) = dotf (fun i => b i - apply_cols m xb i) q).
  { set (res := fun i => b i - apply_cols m xb i) in *.
    assert (Z0 : dotf res (apply_cols m y) = 0) by (rewrite dotf_comb; apply sumn_0; intros d Hd; rewrite (Hr d Hd); ring).
    replace (dotf res (a m)) with (dotf res q + dotf res (apply_cols m y)); [lra|]. unfold dotf; rewrite <- sumn_add. apply sumn_ext; intros i _; unfold q; ring. }
  assert (BQ : dotf (fun i => b i - apply_cols m xb i) q = dotf b q).
  { assert (Z0 : dotf q (apply_cols m xb) = 0) by (rewrite dotf_comb; apply sumn_0; intros d Hd; rewrite (Hq d Hd); ring).
    replace (dotf b q) with (dotf (fun i => b i - apply_cols m xb i) q + dotf q (apply_cols m xb)); [lra|]. unfold dotf; rewrite <- sumn_add. apply sumn_ext; intros i _; ring. }
  cbn [solve]. fold xb y q. destruct (Req_EM_T (dotf q q) 0) as [Z0|Nz].
  - assert (E : forall i, b i - apply_cols (S m) (fun d => if (d =? m)%nat then 0 else xb d) i = b i - apply_cols m xb i) by (intros i; rewrite Same; ring).
    unfold dotf at 1. rewrite (sumn_ext r _ (fun i => (b i - apply_cols m xb i) * a c i)) by (intros i _; rewrite E; reflexivity).
    destruct (Nat.eq_dec c m) as [->|Ne]; [|apply (Hr c); lia].
    change (dotf (fun i => b i - apply_cols m xb i) (a m) = 0). rewrite RQ.
    assert (q0 : forall i, (i < r)%nat -> q i = 0).
    { intros i Hi. assert (Sq : forall i, (i < r)%nat -> 0 <= q i * q i) by (intros; nra).
      pose proof (sumn_zero_all r (fun i => q i * q i) Sq Z0 i Hi) as H; cbv beta in H. nra. }
    unfold dotf; apply sumn_0; intros i Hi; rewrite (q0 i Hi); ring.
  - set (s := dotf b q / dotf q q).
    assert (E : forall i, b i - apply_cols (S m) (fun d => if (d =? m)%nat then s else xb d - s * y d) i = (b i - apply_cols m xb i) - s * q i).
    { intros i; rewrite (Same (fun d => xb d - s * y d)). unfold q.
      replace (apply_cols m (fun d => xb d - s * y d) i) with (apply_cols m xb i - s * apply_cols m y i); [ring|].
      unfold apply_cols. rewrite <- sumn_scal, <- sumn_sub. apply sumn_ext; intros; ring. }
    unfold dotf at 1. rewrite (sumn_ext r _ (fun i => (b i - apply_cols m xb i) * a c i - s * (q i * a c i))) by (intros i _; rewrite E; ring).
    rewrite sumn_sub, sumn_scal.
    change (dotf (fun i => b i - apply_cols m xb i) (a c) - s * dotf q (a c) = 0).
    destruct (Nat.eq_dec c m) as [->|Ne].
    + rewrite RQ, BQ, QQ. unfold s; field; exact Nz.
    + rewrite (Hr c), (Hq c) by lia; ring.
Qed.
End Solve.

(** The entries of a sparse matrix. *)
Definition dense (A : sparse) (c i : nat) : R :=
  np_sum (map (fun e => if (fst (fst e) =? i)%nat && (snd (fst e) =? c)%nat then IZR (snd e) else 0) (s_entries A)).

Lemma matvec_dense A (y v : list R) : length y = s_cols A -> matvec (K := Rring) A y = Ok v ->
  length v = s_rows A /\ forall i, (i < s_rows A)%nat -> nth i v 0 = apply_cols (dense A) (s_cols A) (fun c => nth c y 0) i.
Proof.
  intros Ly E. destruct (matvec_ok (K := Rring) A y Ly) as (u & Eu & Lu & Hu). change (carrier Rring) with R in *.
  rewrite E in Eu; injection Eu as <-. split; [exact Lu|]. intros i Hi. rewrite (nth_error_nth _ _ 0 (Hu i Hi)).
  clear Hu E. unfold apply_cols, dense. induction (s_entries A) as [|e es IH]; cbn [filter map np_sum fold_right].
  - rewrite row_val0. symmetry; apply sumn_0; intros; ring.
  - unfold np_sum in *. cbn [fold_right]. rewrite (sumn_ext (s_cols A) _ (fun c => nth c y 0 * (if (fst (fst e) =? i)%nat && (snd (fst e) =? c)%nat then IZR (snd e) else 0) +
       nth c y 0 * fold_right Rplus 0 (map (fun e0 => if (fst (fst e0) =? i)%nat && (snd (fst e0) =? c)%nat then IZR (snd e0) else 0) es))) by (intros; ring).
    rewrite sumn_add, <- IH. destruct (fst (fst e) =? i)%nat; cbn [andb].
    + rewrite row_val_cons. change (carrier Rring) with R. f_equal.
      destruct (Nat.lt_ge_cases (snd (fst e)) (s_cols A)) as [Hl|Hl].
      * rewrite (sumn_single (s_cols A) _ (snd (fst e)) Hl); [rewrite Nat.eqb_refl; ring|]. intros c Hc Hne.
        rewrite (proj2 (Nat.eqb_neq (snd (fst e)) c)) by congruence; ring.
      * rewrite nth_overflow by lia. rewrite sumn_0; [ring|]. intros c Hc. rewrite (proj2 (Nat.eqb_neq (snd (fst e)) c)) by lia; ring.
    + rewrite sumn_0; [symmetry; apply Rplus_0_l|]. intros; ring.
Qed.

Definition lsq (A : sparse) (b : list R) : list R :=
  map (solve (s_rows A) (dense A) (s_cols A) (fun i => nth i b 0)) (seq 0 (s_cols A)).

Theorem lsq_least_squares : least_squares lsq.
Proof.
  intros A b Lb. assert (Ll : length (lsq A b) = s_cols A) by (unfold lsq; rewrite map_length, seq_length; reflexivity).
  split; [exact Ll|]. intros y u v Ly Eu Ev. change (carrier Rring) with R in y, u, v, Ly.
  destruct (matvec_dense A _ u Ll Eu) as [Lu Hu]. destruct (matvec_dense A y v Ly Ev) as [Lv Hv].
  set (n := length b) in *. set (a := dense A) in *. set (m := s_cols A) in *. set (bf := fun i => nth i b 0).
  set (z := solve n a m bf).
  assert (Hz : forall c, (c < m)%nat -> nth c (lsq A b) 0 = z c).
  { intros c Hc. unfold lsq. fold m. rewrite (nth_indep _ 0 (solve (s_rows A) (dense A) m (fun i => nth i b 0) 0%nat)) by (rewrite map_length, seq_length; exact Hc).
    rewrite map_nth, seq_nth by exact Hc. unfold z. rewrite Lb. reflexivity. }
  set (res := fun i => bf i - apply_cols a m z i). set (w := fun c => z c - nth c y 0).
  assert (Ru : forall i, (i < n)%nat -> nth i (vsub b u) 0 = res i).
  { intros i Hi. rewrite nth_vsub by (fold n; congruence). rewrite (Hu i) by lia. unfold res, bf. f_equal. unfold apply_cols; apply sumn_ext; intros c Hc; rewrite (Hz c Hc); reflexivity. }
  assert (Rv : forall i, (i < n)%nat -> nth i (vsub b v) 0 = res i + apply_cols a m w i).
  { intros i Hi. rewrite nth_vsub by (fold n; congruence). rewrite (Hv i) by lia. unfold res, bf.
    replace (apply_cols a m w i) with (apply_cols a m z i - apply_cols a m (fun c => nth c y 0) i); [ring|].
    unfold apply_cols. rewrite <- sumn_sub. apply sumn_ext; intros; unfold w; ring. }
  unfold inner. rewrite (sumn_ext n _ (fun i => res i * res i)) by (intros i Hi; rewrite (Ru i Hi); reflexivity).
  rewrite (sumn_ext n (fun i => nth i (vsub b v) 0 * _) (fun i => res i * res i + (2 * (res i * apply_cols a m w i) + apply_cols a m w i * apply_cols a m w i)))
    by (intros i Hi; rewrite (Rv i Hi); ring).
  rewrite !sumn_add, sumn_scal.
  assert (Z0 : sumn n (fun i => res i * apply_cols a m w i) = 0).
  { change (dotf n res (apply_cols a m w) = 0). rewrite dotf_comb. apply sumn_0; intros c Hc. unfold res, z. rewrite (solve_orthogonal n a m bf c Hc); ring. }
  rewrite Z0. assert (0 <= sumn n (fun i => apply_cols a m w i * apply_cols a m w i)) by (apply sumn_nonneg; intros; nra). lra.
Qed.
Print Assumptions lsq_least_squares.
