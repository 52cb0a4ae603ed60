(** LLLTwins.v -- the run of _lll depends only on the inner products of the input columns, up to a
    positive factor: two inputs with proportional Gram matrices make the same turns. *)
From Coq Require Import Lia Lra.
From Verif Require Import Base BaseProofs RealBase RealSum SpecEM SpecCircle LLLModel SpecLLL LLLProofs LLLExecution.
Local Open Scope R_scope.

Section Twins.
Context (d e : nat) (c : R) (B0 C0 : list (list R)).
Hypothesis Hc : 0 < c.
Hypothesis Hlen : length B0 = length C0.
Hypothesis HB : forall i, (i < length B0)%nat -> length (col B0 i) = d.
Hypothesis HC : forall i, (i < length B0)%nat -> length (col C0 i) = e.
Hypothesis HG : forall i j, (i < length B0)%nat -> (j < length B0)%nat -> vdot (col B0 i) (col B0 j) = c * vdot (col C0 i) (col C0 j).

(** The same combination of columns of [B0] and of [C0]. *)
Inductive twin : list R -> list R -> Prop :=
| twin_col i : (i < length B0)%nat -> twin (col B0 i) (col C0 i)
| twin_sub u v u' v' : twin u u' -> twin v v' -> twin (vsub u v) (vsub u' v')
| twin_scale a u u' : twin u u' -> twin (vscale a u) (vscale a u').
Lemma twin_length u u' : twin u u' -> length u = d /\ length u' = e.
Proof.
  induction 1 as [i Hi|u v u' v' _ [A1 A2] _ [A3 A4]|a u u' _ [A1 A2]]; [auto| |].
  - rewrite !vsub_length; [auto|congruence..].
  - rewrite !vscale_length; auto.
Qed.
Lemma twin_dot u u' : twin u u' -> forall v v', twin v v' -> vdot u v = c * vdot u' v'.
Proof.
  induction 1 as [i Hi|u w u' w' T1 IH1 T2 IH2|a u u' _ IH].
  - intros v v' T. induction T as [j Hj|v w v' w' T1 IH1 T2 IH2|a v v' _ IH].
    + apply HG; assumption.
    + destruct (twin_length _ _ T1), (twin_length _ _ T2). rewrite !vdot_sub_r by congruence. rewrite IH1, IH2. ring.
    + rewrite !vdot_scale_r, IH. ring.
  - intros v v' T. destruct (twin_length _ _ T1), (twin_length _ _ T2). rewrite !vdot_sub_l by congruence. rewrite (IH1 _ _ T), (IH2 _ _ T). ring.
  - intros v v' T. rewrite !vdot_scale_l, (IH _ _ T). ring.
Qed.
Lemma twin_ratio u u' v v' w w' x x' : twin u u' -> twin v v' -> twin w w' -> twin x x' -> vdot u v / vdot w x = vdot u' v' / vdot w' x'.
Proof.
  intros T1 T2 T3 T4. rewrite (twin_dot u u' T1 v v' T2), (twin_dot w w' T3 x x' T4). unfold Rdiv. rewrite Rinv_mult.
  replace (c * vdot u' v' * (/ c * / vdot w' x')) with ((c * / c) * (vdot u' v' * / vdot w' x')) by ring. rewrite Rinv_r by lra. ring.
Qed.
Definition twins (M M' : list (list R)) : Prop := length M = length B0 /\ length M' = length B0 /\ forall i, (i < length B0)%nat -> twin (col M i) (col M' i).
Lemma twins_start : twins B0 C0.
Proof. split; [reflexivity|]. split; [congruence|]. intros i Hi. apply twin_col, Hi. Qed.
Lemma twins_gs M M' : twins M M' -> twins (gram_schmidt M) (gram_schmidt M').
Proof.
  intros (L & L' & T). assert (LG : forall M, length (gram_schmidt M) = length M) by (intros X; unfold gram_schmidt, range; rewrite map_length, seq_length; lia).
  split; [rewrite LG; exact L|]. split; [rewrite LG; exact L'|].
  intros i Hi. rewrite !col_gs by lia. unfold gs_column.
  assert (Hl : forall j, In j (range 0 i) -> (j < length B0)%nat) by (intros j; unfold range; rewrite in_seq; lia).
  revert Hl. generalize (range 0 i) as l. generalize (T i Hi). generalize (col M i) (col M' i). intros u u' U l; revert u u' U.
  induction l as [|j l IH]; intros u u' U Hl; cbn [fold_left]; [exact U|]. apply IH; [|intros; apply Hl; right; assumption].
  assert (Hj : (j < length B0)%nat) by (apply Hl; left; reflexivity). apply twin_sub; [exact U|]. unfold proj, gs_coefficient.
  rewrite (twin_ratio u u' _ _ _ _ _ _ U (T j Hj) (T j Hj) (T j Hj)). apply twin_scale, T, Hj.
Qed.
Lemma col_set M k v i : (k < length M)%nat -> col (set_col M k v) i = if (i =? k)%nat then v else col M i.
Proof.
  intros H. unfold col, set_col. destruct (Nat.eqb_spec i k) as [->|N].
  - rewrite app_nth2 by (rewrite firstn_length; lia). rewrite firstn_length, Nat.min_l by lia. rewrite Nat.sub_diag. reflexivity.
  - destruct (Nat.lt_ge_cases i k) as [L|G].
    + rewrite app_nth1 by (rewrite firstn_length; lia). rewrite <- (firstn_skipn k M) at 2. rewrite app_nth1 by (rewrite firstn_length; lia). reflexivity.
    + rewrite app_nth2 by (rewrite firstn_length; lia). rewrite firstn_length, Nat.min_l by lia.
      destruct (i - k)%nat as [|p] eqn:E; [lia|]. cbn [nth]. rewrite <- (firstn_skipn (S k) M) at 2.
      rewrite app_nth2 by (rewrite firstn_length; lia). rewrite firstn_length, Nat.min_l by lia. f_equal. lia.
Qed.
Lemma twins_set M M' k v v' : (k < length B0)%nat -> twins M M' -> twin v v' -> twins (set_col M k v) (set_col M' k v').
Proof.
  intros Hk (L & L' & T) V. split; [rewrite set_col_length; lia|]. split; [rewrite set_col_length; lia|].
  intros i Hi. rewrite !col_set by lia. destruct (i =? k)%nat; auto.
Qed.
Definition same_run (st st' : lll_state) : Prop :=
  l_k st = l_k st' /\ l_change st = l_change st' /\ twins (l_B st) (l_B st') /\ l_Q st = gram_schmidt (l_B st) /\ l_Q st' = gram_schmidt (l_B st').
Lemma same_mu st st' i j : same_run st st' -> (i < length B0)%nat -> (j < length B0)%nat -> mu st i j = mu st' i j.
Proof.
  intros (_ & _ & T & Q & Q') Hi Hj. unfold mu. rewrite Q, Q'. pose proof (twins_gs _ _ T) as (_ & _ & G). apply twin_ratio; try (apply G, Hj). apply T, Hi.
Qed.
Lemma same_reduce1 st st' k j : same_run st st' -> (k < length B0)%nat -> (j < length B0)%nat -> same_run (lll_reduce1 k st j) (lll_reduce1 k st' j).
Proof.
  intros S Hk Hj. unfold lll_reduce1. rewrite (same_mu st st') by assumption. destruct (Rltb _ _); [|exact S].
  destruct S as (K & Ch & T & Q & Q'). cbv zeta. rewrite Ch. split; [exact K|]. split; [reflexivity|]. split; [|split; reflexivity].
  cbn [l_B]. apply twins_set; [exact Hk|exact T|]. apply twin_sub; [apply T, Hk|apply twin_scale, T, Hj].
Qed.
Lemma same_reduce st st' : same_run st st' -> (l_k st < length B0)%nat -> same_run (lll_reduce st) (lll_reduce st') /\ l_k (lll_reduce st) = l_k st.
Proof.
  intros S H. unfold lll_reduce. replace (l_k st') with (l_k st) by apply S.
  assert (Hl : forall j, In j (rev (range 0 (l_k st))) -> (j < length B0)%nat) by (intros j; rewrite <- in_rev; unfold range; rewrite in_seq; lia).
  assert (G : forall k l st st', (k < length B0)%nat -> same_run st st' -> (forall j, In j l -> (j < length B0)%nat) ->
     same_run (fold_left (lll_reduce1 k) l st) (fold_left (lll_reduce1 k) l st') /\ l_k (fold_left (lll_reduce1 k) l st) = l_k st).
  { clear - Hc Hlen HB HC HG. intros k l. induction l as [|j l IH]; intros st st' Hk X Hl; cbn [fold_left]; [auto|]. rewrite <- (reduce1_k k st j).
    apply IH; [exact Hk|apply same_reduce1; [assumption..|apply Hl; left; reflexivity]|intros; apply Hl; right; assumption]. }
  apply G; assumption.
Qed.
Lemma same_turn delta st st' : same_run st st' -> (1 <= l_k st < length B0)%nat -> same_run (lll_turn delta st) (lll_turn delta st').
Proof.
  intros S [H1 H]. destruct (same_reduce st st' S H) as [Y K]. unfold lll_turn. set (s := lll_reduce st) in *. set (s' := lll_reduce st') in *. cbv zeta.
  replace (l_k s') with (l_k s) by apply Y. rewrite K. rewrite (same_mu s s') by (assumption || lia).
  pose proof Y as (EK & EC & T & Q & Q'). pose proof (twins_gs _ _ T) as (_ & _ & G). rewrite <- Q, <- Q' in G.
  assert (E : Rltb ((delta - mu s' (l_k st) (l_k st - 1) ^ 2) * vdot (col (l_Q s) (l_k st - 1)) (col (l_Q s) (l_k st - 1))) (vdot (col (l_Q s) (l_k st)) (col (l_Q s) (l_k st))) =
     Rltb ((delta - mu s' (l_k st) (l_k st - 1) ^ 2) * vdot (col (l_Q s') (l_k st - 1)) (col (l_Q s') (l_k st - 1))) (vdot (col (l_Q s') (l_k st)) (col (l_Q s') (l_k st)))).
  { rewrite !(twin_dot _ _ (G (l_k st - 1)%nat ltac:(lia)) _ _ (G (l_k st - 1)%nat ltac:(lia))), !(twin_dot _ _ (G (l_k st) ltac:(lia)) _ _ (G (l_k st) ltac:(lia))).
    set (a := delta - _). set (p := vdot _ _). set (q := vdot _ _). destruct (Rltb (a * p) q) eqn:E.
    - apply Rltb_true in E. apply Rltb_true. apply (Rmult_lt_compat_l c) in E; [lra|exact Hc].
    - apply Rltb_false in E. apply Rltb_false. apply (Rmult_le_compat_l c) in E; lra. }
  rewrite E; clear E. destruct (Rltb _ _).
  - split; [reflexivity|]. split; [exact EC|]. split; [exact T|]. split; assumption.
  - split; [reflexivity|]. split; [cbn; rewrite EC; reflexivity|]. split; [|split; reflexivity]. cbn [l_B]. unfold swap_cols.
    pose proof T as (_ & _ & Tc). apply twins_set; [lia| |apply Tc; lia]. apply twins_set; [lia|exact T|apply Tc; lia].
Qed.
Lemma same_loop delta fuel : forall st st', same_run st st' -> (1 <= l_k st)%nat ->
  match lll_loop delta fuel st, lll_loop delta fuel st' with
  | Ok (B, U), Ok (B', U') => U = U' /\ twins B B'
  | Raise x, Raise y => x = y
  | _, _ => False
  end.
Proof.
  induction fuel as [|fuel IH]; intros st st' S K; cbn [lll_loop]; pose proof S as (EK & EC & (L & L' & T) & _); rewrite <- EK, L, L';
    destruct (Nat.ltb_spec (l_k st) (length B0)) as [H|H]; try reflexivity; try (split; [exact EC|split; [exact L|split; [exact L'|exact T]]]).
  apply IH; [apply same_turn; [exact S|lia]|apply turn_k].
Qed.
Theorem lll_twins fuel :
  match lll fuel B0, lll fuel C0 with
  | Ok (B, U), Ok (B', U') => U = U' /\ twins B B'
  | Raise x, Raise y => x = y
  | _, _ => False
  end.
Proof.
  unfold lll. apply same_loop; [|cbn; lia]. split; [reflexivity|]. split; [cbn; rewrite Hlen; reflexivity|]. split; [apply twins_start|]. split; reflexivity.
Qed.
End Twins.
