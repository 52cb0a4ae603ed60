(** RoundLLL.v -- the lattice reduction with rounding: lemmas. *)
From Coq Require Import Reals Lra Lia ZArith List.
From Verif Require Import Base BaseProofs RealBase RealSum SpecEM SpecCircle CircleProofs LLLModel SpecLLL LLLProofs RoundModel.
Import ListNotations.
Local Open Scope R_scope.

Lemma Ok_eq {A} (a b : A) : Ok a = Ok b -> a = b. Proof. congruence. Qed.
Lemma real_set_col M k v : real_mat (zset_col M k v) = set_col (real_mat M) k (map IZR v).
Proof. unfold real_mat, zset_col, set_col. rewrite map_app. cbn [map]. rewrite firstn_map, skipn_map. reflexivity. Qed.
Lemma real_col M i : map IZR (zcol M i) = col (real_mat M) i.
Proof. unfold zcol, col, real_mat. change (@nil R) with (map IZR []). rewrite map_nth. reflexivity. Qed.
Lemma real_eye n : real_mat (zeye n) = eye n.
Proof.
  unfold real_mat, zeye, eye, mk2, mk1. rewrite map_map. apply map_ext; intros i. rewrite map_map. apply map_ext; intros j. destruct (i =? j)%nat; reflexivity.
Qed.
Lemma zsub_mul_ok r a b c : zsub_mul r a b = Ok c -> c = (a - r * b)%Z /\ (Z.abs c <= 2 ^ 53)%Z.
Proof.
  unfold zsub_mul, exact_int. destruct (Z.leb_spec (Z.abs (r * b)) (2 ^ 53)); cbn [bind]; [|discriminate].
  destruct (Z.leb_spec (Z.abs (a - r * b)) (2 ^ 53)); [|discriminate]. intros [= <-]. split; [reflexivity|assumption].
Qed.
Lemma zcolumn_op_ok r : forall u v c, zcolumn_op r u v = Ok c ->
  map IZR c = vsub (map IZR u) (vscale (IZR r) (map IZR v)) /\ Forall (fun z => (Z.abs z <= 2 ^ 53)%Z) c.
Proof.
  unfold zcolumn_op. induction u as [|a u IH]; intros [|b v] c; cbn [combine map_res].
  1-3: intros [= <-]; split; [reflexivity|constructor].
  cbn [fst snd]. destruct (zsub_mul r a b) as [q|] eqn:E1; cbn [bind]; [|discriminate].
  destruct (map_res _ (combine u v)) as [l|] eqn:E2; cbn [bind]; [|discriminate]. intros [= <-].
  destruct (zsub_mul_ok _ _ _ _ E1) as [-> B]. destruct (IH v l E2) as [H1 H2]. split; [|constructor; assumption].
  cbn [map]. unfold vsub, vscale in *. cbn [map combine fst snd]. rewrite H1. f_equal. rewrite minus_IZR, mult_IZR. reflexivity.
Qed.

Section Reduction.
Variables (rnd : R -> R) (dot_ : list R -> list R -> R) (n : nat).
Definition WfD (st : lll_state_d) : Prop :=
  length (d_B st) = n /\ matrix n n (d_change st) /\ (1 <= d_k st)%nat /\
  Uni n (eye n) (real_mat (d_change st)) (real_mat (d_change st)) /\
  Forall (Forall (fun z => (Z.abs z <= 2 ^ 53)%Z)) (d_change st).
Lemma real_matrix_inv M : matrix n n (real_mat M) -> matrix n n M.
Proof. intros [L F]. unfold real_mat in *. rewrite map_length in L. split; [exact L|]. apply Forall_map in F. eapply Forall_impl; [|exact F]. cbn. intros a H. rewrite map_length in H. exact H. Qed.
Lemma zset_forall (P : list Z -> Prop) M k v : Forall P M -> P v -> Forall P (zset_col M k v).
Proof.
  intros H Hv. unfold zset_col. apply Forall_app. split; [|constructor; [exact Hv|]].
  - rewrite <- (firstn_skipn k M) in H. apply Forall_app in H. apply H.
  - rewrite <- (firstn_skipn (S k) M) in H. apply Forall_app in H. apply H.
Qed.
Lemma zcol_forall (P : list Z -> Prop) M k : Forall P M -> P [] -> P (zcol M k).
Proof. intros H H0. unfold zcol. destruct (nth_in_or_default k M []) as [I|E]; [rewrite Forall_forall in H; apply H, I|rewrite E; exact H0]. Qed.

Lemma init_wfd B : length B = n -> WfD (lll_init_d rnd dot_ B).
Proof.
  intros L. unfold lll_init_d. rewrite L. split; [exact L|]. cbn [d_change d_k].
  split; [apply real_matrix_inv; rewrite real_eye; apply eye_matrix|]. split; [lia|]. split.
  - rewrite real_eye. pose proof (Wf_init n (eye n) (eye_matrix n)) as (_ & _ & _ & _ & W). cbn [lll_init l_B l_change] in W. rewrite (proj1 (eye_matrix n)) in W. exact W.
  - unfold zeye. apply Forall_forall. intros c Hc. apply in_map_iff in Hc as (i & <- & _). apply Forall_forall. intros z Hz. apply in_map_iff in Hz as (j & <- & _). destruct (i =? j)%nat; cbn; lia.
Qed.
Lemma reduce1_wfd k j st st' : WfD st -> (k < n)%nat -> (j < k)%nat -> lll_reduce1_d rnd dot_ k j st = Ok st' -> WfD st' /\ d_k st' = d_k st.
Proof.
  intros (L & M & K & U & Bd) Hk Hj. unfold lll_reduce1_d. destruct (Rltb _ _); [|intros [= <-]; split; [repeat (split; try assumption)|reflexivity]].
  destruct (zcolumn_op _ _ _) as [c|] eqn:E; cbn [bind]; [|discriminate]. intros X. apply Ok_eq in X. subst st'. split; [|reflexivity].
  destruct (zcolumn_op_ok _ _ _ _ E) as [Ec Hc]. rewrite !real_col in Ec.
  pose proof (real_mat_matrix n n _ M) as RM. set (r := rint _) in *.
  pose proof (Uni_op n (eye n) _ _ k j r RM RM Hk ltac:(lia) ltac:(lia) U) as U'. rewrite <- Ec, <- real_set_col in U'.
  unfold WfD. cbn [d_B d_change d_k]. split; [|split; [|split; [exact K|split; [exact U'|]]]].
  - rewrite app_length. cbn [length]. rewrite firstn_length, skipn_length. lia.
  - apply real_matrix_inv. rewrite real_set_col. apply set_col_matrix; [exact RM|exact Hk|]. rewrite Ec. rewrite vsub_length; rewrite ?vscale_length; rewrite ?(col_length n (real_mat (d_change st))) by (assumption || lia); reflexivity.
  - apply zset_forall; assumption.
Qed.
Lemma reduce_wfd st st' : WfD st -> (d_k st < n)%nat -> lll_reduce_d rnd dot_ st = Ok st' -> WfD st' /\ d_k st' = d_k st.
Proof.
  intros W Hk. unfold lll_reduce_d. set (k := d_k st) in *.
  assert (G : forall l s s', Forall (fun j => (j < k)%nat) l -> WfD s -> for_in l (lll_reduce1_d rnd dot_ k) s = Ok s' -> WfD s' /\ d_k s' = d_k s).
  { induction l as [|j l IH]; intros s s' F Ws; cbn [for_in]; [intros [= <-]; split; [exact Ws|reflexivity]|].
    inversion F; subst. destruct (lll_reduce1_d rnd dot_ k j s) as [s1|] eqn:E; cbn [bind]; [|discriminate]. intros E2.
    destruct (reduce1_wfd k j s s1 Ws Hk ltac:(assumption) E) as [W1 K1]. destruct (IH s1 s' ltac:(assumption) W1 E2) as [W2 K2]. split; [exact W2|congruence]. }
  intros E. apply (G _ _ _) in E; [exact E| |exact W]. apply Forall_rev, Forall_forall. intros j Hj. unfold range in Hj. apply in_seq in Hj. lia.
Qed.
Lemma turn_wfd delta st st' : WfD st -> (d_k st < n)%nat -> lll_turn_d rnd dot_ delta st = Ok st' -> WfD st'.
Proof.
  intros W Hk. unfold lll_turn_d. destruct (lll_reduce_d rnd dot_ st) as [s|] eqn:E; cbn [bind]; [|discriminate].
  destruct (reduce_wfd st s W Hk E) as [(L & M & K & U & Bd) Ek]. rewrite <- Ek in Hk. cbv zeta. destruct (Rltb _ _); intros X; apply Ok_eq in X; subst st'.
  - unfold WfD. cbn [d_B d_change d_k]. split; [exact L|]. split; [exact M|]. split; [lia|]. split; assumption.
  - pose proof (real_mat_matrix n n _ M) as RM. pose proof (Uni_swap n (eye n) _ _ (d_k s) RM RM K Hk U) as U'.
    assert (Es : real_mat (zset_col (zset_col (d_change s) (d_k s) (zcol (d_change s) (d_k s - 1))) (d_k s - 1) (zcol (d_change s) (d_k s))) = swap_cols (real_mat (d_change s)) (d_k s)).
    { rewrite !real_set_col, !real_col. reflexivity. }
    rewrite <- Es in U'. unfold WfD. cbn [d_B d_change d_k]. split; [|split; [|split; [lia|split; [exact U'|]]]].
    + unfold swap_cols, set_col. rewrite app_length. cbn [length]. rewrite firstn_length, skipn_length, app_length. cbn [length]. rewrite firstn_length, skipn_length. lia.
    + apply real_matrix_inv. rewrite Es. apply swap_matrix; assumption.
    + apply zset_forall; [apply zset_forall; [exact Bd|]|]; apply zcol_forall; try exact Bd; constructor.
Qed.
Lemma loop_wfd delta fuel : forall st B' change, WfD st -> lll_loop_d rnd dot_ delta fuel st = Ok (B', change) ->
  exists st', WfD st' /\ d_B st' = B' /\ d_change st' = change.
Proof.
  induction fuel as [|fuel IH]; intros st B' change W; cbn [lll_loop_d]; destruct (Nat.ltb_spec (d_k st) (length (d_B st))) as [Hl|]; try discriminate.
  1, 3: intros [= <- <-]; exists st; auto.
  destruct (lll_turn_d rnd dot_ delta st) as [s|] eqn:E; cbn [bind]; [|discriminate]. intros E2. apply (IH s); [|exact E2].
  rewrite (proj1 W) in Hl. apply (turn_wfd delta st s W Hl E).
Qed.
End Reduction.
