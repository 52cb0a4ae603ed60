(** LLLExecution.v -- running _lll on rational inputs: an executor over Q that agrees with the
    model wherever no division by zero occurs. *)
From Coq Require Import QArith Qreals Qround Lia Lra.
From Verif Require Import Base BaseProofs RealBase RealSum SpecEM SpecCircle LLLModel SpecLLL LLLProofs.
Import ListNotations.
Local Open Scope Q_scope.

Definition qdot (u v : list Q) : Q := fold_right (fun x s => Qred (x + s)) 0 (map (fun p => fst p * snd p) (combine u v)).
Definition qsub (u v : list Q) : list Q := map (fun p => Qred (fst p - snd p)) (combine u v).
Definition qscale (c : Q) (v : list Q) : list Q := map (fun x => Qred (c * x)) v.
Definition qcol (B : list (list Q)) (i : nat) : list Q := nth i B [].
Definition qdiv (x y : Q) : option Q := if Qeq_bool y 0 then None else Some (Qred (x / y)).

Definition qgs_column (B : list (list Q)) (i : nat) : option (list Q) :=
  fold_left (fun Ai j => match Ai with
    | Some Ai => match qdiv (qdot Ai (qcol B j)) (qdot (qcol B j) (qcol B j)) with
                 | Some c => Some (qsub Ai (qscale c (qcol B j))) | None => None end
    | None => None end) (range 0 i) (Some (qcol B i)).
Fixpoint all_some {A} (l : list (option A)) : option (list A) :=
  match l with
  | [] => Some []
  | Some x :: l => match all_some l with Some r => Some (x :: r) | None => None end
  | None :: _ => None
  end.
Definition qgram_schmidt (B : list (list Q)) : option (list (list Q)) := all_some (map (qgs_column B) (range 0 (length B))).

Record qstate := mkQ { q_B : list (list Q); q_Q : list (list Q); q_change : list (list Q); q_k : nat }.
Definition qmu (st : qstate) (i j : nat) : option Q :=
  qdiv (qdot (qcol (q_B st) i) (qcol (q_Q st) j)) (qdot (qcol (q_Q st) j) (qcol (q_Q st) j)).
(** Nearest integer; ties are refused. *)
Definition qrint (x : Q) : option Z :=
  let f := Qfloor x in let d := x - inject_Z f in
  if Qeq_bool d (1 # 2) then None else if Qle_bool d (1 # 2) then Some f else Some (f + 1)%Z.
Definition qset_col (M : list (list Q)) (k : nat) (v : list Q) : list (list Q) := firstn k M ++ v :: skipn (S k) M.
Definition qltb (x y : Q) : bool := negb (Qle_bool y x).
Definition qabs (x : Q) : Q := if Qle_bool 0 x then x else - x.
Definition qreduce1 (k : nat) (st : qstate) (j : nat) : option qstate :=
  match qmu st k j with
  | None => None
  | Some m => if qltb (1 # 2) (qabs m) then
      match qrint m with
      | None => None
      | Some r =>
        let B' := qset_col (q_B st) k (qsub (qcol (q_B st) k) (qscale (inject_Z r) (qcol (q_B st) j))) in
        let change' := qset_col (q_change st) k (qsub (qcol (q_change st) k) (qscale (inject_Z r) (qcol (q_change st) j))) in
        match qgram_schmidt B' with Some Q' => Some (mkQ B' Q' change' (q_k st)) | None => None end
      end
    else Some st
  end.
Definition qreduce (st : qstate) : option qstate :=
  fold_left (fun s j => match s with Some s => qreduce1 (q_k st) s j | None => None end) (rev (range 0 (q_k st))) (Some st).
Definition qswap (M : list (list Q)) (k : nat) : list (list Q) := qset_col (qset_col M k (qcol M (k - 1))) (k - 1) (qcol M k).
Definition qturn (delta : Q) (st0 : qstate) : option qstate :=
  match qreduce st0 with
  | None => None
  | Some st =>
    let k := q_k st in
    match qmu st k (k - 1) with
    | None => None
    | Some m =>
      if qltb ((delta - m * m) * qdot (qcol (q_Q st) (k - 1)) (qcol (q_Q st) (k - 1))) (qdot (qcol (q_Q st) k) (qcol (q_Q st) k))
      then Some (mkQ (q_B st) (q_Q st) (q_change st) (k + 1))
      else
        let B' := qswap (q_B st) k in
        match qgram_schmidt B' with Some Q' => Some (mkQ B' Q' (qswap (q_change st) k) (Nat.max (k - 1) 1)) | None => None end
    end
  end.
Definition qeye (n : nat) : list (list Q) := mk2 n n (fun i j => if (i =? j)%nat then 1 else 0).
Definition qinit (B : list (list Q)) : option qstate :=
  match qgram_schmidt B with Some Q' => Some (mkQ B Q' (qeye (length B)) 1) | None => None end.

(** Rational matrices as real ones. *)
Definition RV (v : list Q) : list R := map Q2R v.
Definition RM (M : list (list Q)) : list (list R) := map RV M.
Definition RS (st : qstate) : lll_state := mkLLL (RM (q_B st)) (RM (q_Q st)) (RM (q_change st)) (q_k st).

Lemma Q2R_red x : Q2R (Qred x) = Q2R x.
Proof. apply Qeq_eqR, Qred_correct. Qed.
Lemma RV_dot u v : vdot (RV u) (RV v) = Q2R (qdot u v).
Proof.
  unfold vdot, qdot, RV. revert v; induction u as [|a u IH]; intros [|b v]; cbn [combine map fold_right fst snd]; try (unfold Q2R; cbn; lra).
  rewrite Q2R_red, Q2R_plus, Q2R_mult, IH. reflexivity.
Qed.
Lemma RV_sub u v : vsub (RV u) (RV v) = RV (qsub u v).
Proof.
  unfold vsub, qsub, RV. revert v; induction u as [|a u IH]; intros [|b v]; cbn [combine map fst snd]; try reflexivity.
  rewrite Q2R_red, Q2R_minus. f_equal. apply IH.
Qed.
Lemma RV_scale c v : vscale (Q2R c) (RV v) = RV (qscale c v).
Proof. unfold vscale, qscale, RV. rewrite !map_map. apply map_ext; intros x. rewrite Q2R_red, Q2R_mult. reflexivity. Qed.
Lemma RM_col B i : col (RM B) i = RV (qcol B i).
Proof. unfold col, qcol, RM. change (@nil R) with (RV []). apply map_nth. Qed.
Lemma qdiv_ok x y c : qdiv x y = Some c -> (Q2R x / Q2R y = Q2R c)%R.
Proof.
  unfold qdiv. destruct (Qeq_bool y 0) eqn:E; [discriminate|]. intros H. assert (c = Qred (x / y)) as -> by congruence. rewrite Q2R_red, Q2R_div; [reflexivity|].
  intros N. apply Qeq_eq_bool in N. congruence.
Qed.
Lemma qltb_ok x y : Rltb (Q2R x) (Q2R y) = qltb x y.
Proof.
  unfold qltb. destruct (Qle_bool y x) eqn:E; cbn.
  - apply Rltb_false. apply Qle_Rle, Qle_bool_iff, E.
  - apply Rltb_true, Qlt_Rlt. apply Qnot_le_lt; intros N. apply Qle_bool_iff in N; congruence.
Qed.
Lemma qabs_ok x : Rabs (Q2R x) = Q2R (qabs x).
Proof.
  unfold qabs. destruct (Qle_bool 0 x) eqn:E.
  - apply Qle_bool_iff, Qle_Rle in E. replace (Q2R 0) with 0%R in E by (unfold Q2R; cbn; lra). apply Rabs_right; lra.
  - assert (x < 0) as L by (apply Qnot_le_lt; intros N; apply Qle_bool_iff in N; congruence).
    apply Qlt_Rlt in L. replace (Q2R 0) with 0%R in L by (unfold Q2R; cbn; lra). rewrite Rabs_left, Q2R_opp by lra. reflexivity.
Qed.
Lemma Q2R_Z z : Q2R (inject_Z z) = IZR z.
Proof. unfold Q2R, inject_Z; cbn. field. Qed.
Lemma Q2R_half : Q2R (1 # 2) = (1 / 2)%R.
Proof. unfold Q2R; cbn. field. Qed.
Lemma qrint_ok x r : qrint x = Some r -> rint (Q2R x) = r.
Proof.
  unfold qrint. set (f := Qfloor x). set (d := x - inject_Z f).
  assert (D : (Q2R d = Q2R x - IZR f)%R) by (unfold d; rewrite Q2R_minus, Q2R_Z; reflexivity).
  assert (D0 : (0 <= Q2R d)%R).
  { rewrite D. pose proof (Qfloor_le x) as H. apply Qle_Rle in H. fold f in H. rewrite Q2R_Z in H. lra. }
  assert (D1 : (Q2R d < 1)%R).
  { rewrite D. pose proof (Qlt_floor x) as H. apply Qlt_Rlt in H. fold f in H. rewrite Q2R_Z, plus_IZR in H. lra. }
  destruct (Qeq_bool d (1 # 2)) eqn:E; [discriminate|].
  assert (Ne : (Q2R d <> 1 / 2)%R).
  { rewrite <- Q2R_half. intros N. apply eqR_Qeq in N. apply Qeq_eq_bool in N. congruence. }
  destruct (Qle_bool d (1 # 2)) eqn:L; intros H; injection H as <-; apply rint_unique.
  - apply Qle_bool_iff, Qle_Rle in L. rewrite Q2R_half in L. apply Rabs_def1; lra.
  - assert (1 # 2 < d) as G by (apply Qnot_le_lt; intros N; apply Qle_bool_iff in N; congruence).
    apply Qlt_Rlt in G. rewrite Q2R_half in G. rewrite plus_IZR. apply Rabs_def1; lra.
Qed.
Lemma qgs_column_ok B i c : qgs_column B i = Some c -> gs_column (RM B) i = RV c.
Proof.
  unfold qgs_column, gs_column. rewrite RM_col. generalize (qcol B i) at 1 2. generalize (range 0 i) as l.
  assert (Nn : forall l, fold_left (fun Ai j => match Ai with
    | Some Ai => match qdiv (qdot Ai (qcol B j)) (qdot (qcol B j) (qcol B j)) with
                 | Some c => Some (qsub Ai (qscale c (qcol B j))) | None => None end
    | None => None end) l (@None (list Q)) = None) by (induction l; cbn; auto).
  induction l as [|j l IH]; intros q H; cbn [fold_left] in *; [inversion H; reflexivity|].
  destruct (qdiv _ _) as [d|] eqn:E; [|rewrite Nn in H; discriminate].
  rewrite <- (IH _ H). f_equal. unfold proj, gs_coefficient. rewrite RM_col, !RV_dot, (qdiv_ok _ _ _ E), RV_scale, RV_sub. reflexivity.
Qed.
Lemma all_some_ok {A} (l : list (option A)) r : all_some l = Some r -> l = map Some r.
Proof.
  revert r; induction l as [|[x|] l IH]; intros r H; cbn in H; [inversion H; reflexivity| |discriminate].
  destruct (all_some l) as [s|]; [|discriminate]. inversion H; subst. cbn. f_equal. apply IH; reflexivity.
Qed.
Lemma qgram_schmidt_ok B G : qgram_schmidt B = Some G -> gram_schmidt (RM B) = RM G.
Proof.
  intros H. apply all_some_ok in H. unfold gram_schmidt. unfold RM at 2. rewrite map_length. unfold RM at 2.
  revert G H. generalize (range 0 (length B)) as l. induction l as [|i l IH]; intros [|g G] H; cbn in *; try discriminate; [reflexivity|].
  inversion H. rewrite (qgs_column_ok B i g) by assumption. f_equal. apply IH; assumption.
Qed.
Lemma RM_set_col M k v : set_col (RM M) k (RV v) = RM (qset_col M k v).
Proof. unfold set_col, qset_col, RM. rewrite map_app, firstn_map, skipn_map. reflexivity. Qed.
Lemma qmu_ok st i j m : qmu st i j = Some m -> mu (RS st) i j = Q2R m.
Proof. intros H. unfold mu, RS; cbn [l_B l_Q]. rewrite !RM_col, !RV_dot. apply qdiv_ok, H. Qed.
Lemma qreduce1_ok k st j st' : qreduce1 k st j = Some st' -> lll_reduce1 k (RS st) j = RS st'.
Proof.
  unfold qreduce1, lll_reduce1. destruct (qmu st k j) as [m|] eqn:E; [|discriminate]. rewrite (qmu_ok _ _ _ _ E).
  rewrite qabs_ok, <- Q2R_half, qltb_ok. destruct (qltb _ _); [|intros H; injection H as <-; reflexivity].
  destruct (qrint m) as [r|] eqn:Er; [|discriminate]. rewrite (qrint_ok _ _ Er). rewrite <- Q2R_Z.
  destruct (qgram_schmidt _) as [G|] eqn:EG; [|discriminate]. intros H; injection H as <-.
  unfold RS at 1 2 3 4 5 6 7 8 9; cbn [l_B l_Q l_change l_k]. rewrite !RM_col, !RV_scale, !RV_sub, !RM_set_col, (qgram_schmidt_ok _ _ EG). reflexivity.
Qed.
Lemma qreduce_ok st st' : qreduce st = Some st' -> lll_reduce (RS st) = RS st'.
Proof.
  unfold qreduce, lll_reduce. change (l_k (RS st)) with (q_k st). generalize (q_k st) at 1 3 as k. intros k. generalize (rev (range 0 (q_k st))) as l.
  revert st. intros st l. revert st.
  assert (Nn : forall l, fold_left (fun s j => match s with Some s => qreduce1 k s j | None => None end) l None = None) by (induction l0; cbn; auto).
  induction l as [|j l IH]; intros st H; cbn [fold_left] in *; [inversion H; reflexivity|].
  destruct (qreduce1 k st j) as [s|] eqn:E; [|rewrite Nn in H; discriminate]. rewrite (qreduce1_ok _ _ _ _ E). apply IH, H.
Qed.
Lemma RM_swap M k : swap_cols (RM M) k = RM (qswap M k).
Proof. unfold swap_cols, qswap. rewrite !RM_col, !RM_set_col. reflexivity. Qed.
Theorem qturn_ok delta st st' : qturn delta st = Some st' -> lll_turn (Q2R delta) (RS st) = RS st'.
Proof.
  unfold qturn, lll_turn. destruct (qreduce st) as [s|] eqn:E; [|discriminate]. rewrite (qreduce_ok _ _ E). cbv zeta.
  change (l_k (RS s)) with (q_k s). destruct (qmu s (q_k s) (q_k s - 1)) as [m|] eqn:Em; [|discriminate]. rewrite (qmu_ok _ _ _ _ Em).
  change (l_Q (RS s)) with (RM (q_Q s)). rewrite !RM_col, !RV_dot.
  replace ((Q2R delta - Q2R m ^ 2) * Q2R (qdot (qcol (q_Q s) (q_k s - 1)) (qcol (q_Q s) (q_k s - 1))))%R
    with (Q2R ((delta - m * m) * qdot (qcol (q_Q s) (q_k s - 1)) (qcol (q_Q s) (q_k s - 1)))) by (rewrite Q2R_mult, Q2R_minus, Q2R_mult; ring).
  rewrite qltb_ok. destruct (qltb _ _); [intros H; injection H as <-; reflexivity|].
  destruct (qgram_schmidt _) as [G|] eqn:EG; [|discriminate]. intros H; injection H as <-. unfold RS at 1 2 3 4; cbn [l_B l_change].
  rewrite !RM_swap, (qgram_schmidt_ok _ _ EG). reflexivity.
Qed.
Lemma RM_eye n : eye n = RM (qeye n).
Proof.
  unfold eye, qeye, RM, mk2, RV. rewrite map_map. apply map_ext; intros i. rewrite map_map. apply map_ext; intros j.
  destruct (i =? j)%nat; unfold Q2R; cbn; lra.
Qed.
Lemma qinit_ok B st : qinit B = Some st -> lll_init (RM B) = RS st.
Proof.
  unfold qinit, lll_init. destruct (qgram_schmidt B) as [G|] eqn:E; [|discriminate]. intros H; injection H as <-.
  rewrite (qgram_schmidt_ok _ _ E). replace (length (RM B)) with (length B) by (symmetry; apply map_length). rewrite RM_eye. reflexivity.
Qed.

(** The turns of the loop, without the test. *)
Fixpoint turns (delta : R) (t : nat) (st : lll_state) : lll_state :=
  match t with O => st | S t => turns delta t (lll_turn delta st) end.
Definition forever (delta : R) (st : lll_state) : Prop :=
  forall t, (l_k (turns delta t st) < length (l_B (turns delta t st)))%nat.
Lemma forever_loops delta fuel : forall st, forever delta st -> lll_loop delta fuel st = Raise LoopForever.
Proof.
  induction fuel as [|fuel IH]; intros st F; pose proof (F 0%nat) as F0; cbn [turns] in F0; apply Nat.ltb_lt in F0; cbn [lll_loop]; rewrite F0; [reflexivity|].
  apply IH. intros t. apply (F (S t)).
Qed.
Lemma turns_add delta a b st : turns delta (a + b) st = turns delta b (turns delta a st).
Proof. revert st; induction a as [|a IH]; intros st; cbn; auto. Qed.

(** A state that comes back after [p] turns, all of which are below the number of columns. *)
Lemma periodic_forever delta p st : (1 <= p)%nat -> turns delta p st = st ->
  (forall t, (t < p)%nat -> (l_k (turns delta t st) < length (l_B (turns delta t st)))%nat) -> forever delta st.
Proof.
  intros Hp Hc Hb t. induction t as [t IH] using lt_wf_ind. destruct (Nat.lt_ge_cases t p) as [L|G]; [apply Hb, L|].
  replace t with (p + (t - p))%nat by lia. rewrite turns_add, Hc. apply IH. lia.
Qed.
Lemma later_forever delta a st : (forall t, (t < a)%nat -> (l_k (turns delta t st) < length (l_B (turns delta t st)))%nat) ->
  forever delta (turns delta a st) -> forever delta st.
Proof.
  intros Hb F t. destruct (Nat.lt_ge_cases t a) as [L|G]; [apply Hb, L|].
  replace t with (a + (t - a))%nat by lia. rewrite turns_add. apply F.
Qed.

(** Execution of several turns. *)
Fixpoint qturns (t : nat) (st : qstate) : option qstate :=
  match t with O => Some st | S t => match qturn (3 # 4) st with Some s => qturns t s | None => None end end.
Lemma qturns_ok t : forall st st', qturns t st = Some st' -> turns (3 / 4) t (RS st) = RS st'.
Proof.
  induction t as [|t IH]; intros st st' H; cbn [qturns turns] in *; [injection H as <-; reflexivity|].
  destruct (qturn (3 # 4) st) as [s|] eqn:E; [|discriminate]. apply qturn_ok in E.
  replace (Q2R (3 # 4)) with (3 / 4)%R in E by (unfold Q2R; cbn; lra). rewrite E. apply IH, H.
Qed.

(** More columns after those the loop reaches, and more rows of zeros, change nothing. *)
Definition pad (m : nat) (v : list R) : list R := v ++ repeat 0%R m.
Definition extends (d m : nat) (st st' : lll_state) : Prop :=
  l_k st' = l_k st /\ matrix d d (l_B st) /\ l_Q st = gram_schmidt (l_B st) /\ l_Q st' = gram_schmidt (l_B st') /\
  exists E, l_B st' = map (pad m) (l_B st) ++ E.
Lemma pad_dot m u v : length u = length v -> vdot (pad m u) (pad m v) = vdot u v.
Proof.
  revert v; induction u as [|a u IH]; intros [|b v] H; try discriminate.
  - unfold pad, vdot; cbn [app]. induction m as [|m IHm]; cbn in *; [reflexivity|]. rewrite IHm. ring.
  - assert (H' : length u = length v) by (cbn in H; congruence). specialize (IH v H'). unfold vdot, pad in *; cbn [app combine map fold_right]. rewrite IH. reflexivity.
Qed.
Lemma pad_scale m c v : vscale c (pad m v) = pad m (vscale c v).
Proof. unfold vscale, pad. rewrite map_app. f_equal. induction m as [|m IH]; cbn; [reflexivity|]. rewrite IH. f_equal. ring. Qed.
Lemma pad_sub m u v : length u = length v -> vsub (pad m u) (pad m v) = pad m (vsub u v).
Proof.
  revert v; induction u as [|a u IH]; intros [|b v] H; try discriminate.
  - unfold pad, vsub; cbn [app combine map]. induction m as [|m IHm]; cbn; [reflexivity|]. rewrite IHm. f_equal. ring.
  - unfold vsub, pad in *; cbn. f_equal. apply IH. cbn in H; congruence.
Qed.
Lemma col_pad m B E i : (i < length B)%nat -> col (map (pad m) B ++ E) i = pad m (col B i).
Proof.
  intros H. unfold col. rewrite app_nth1 by (rewrite map_length; exact H). rewrite (nth_indep _ [] (pad m [])) by (rewrite map_length; exact H). apply map_nth.
Qed.
Lemma gs_pad d m B E i : matrix d d B -> (i < d)%nat -> gs_column (map (pad m) B ++ E) i = pad m (gs_column B i).
Proof.
  intros HB Hi. pose proof HB as [L _]. unfold gs_column. rewrite col_pad by lia.
  assert (Hl : forall j, In j (range 0 i) -> (j < d)%nat) by (intros j; unfold range; rewrite in_seq; lia).
  revert Hl. generalize (range 0 i) as l. assert (Lc : length (col B i) = d) by (apply col_length; assumption). revert Lc. generalize (col B i) as v.
  intros v Lv l; revert v Lv. induction l as [|j l IH]; intros v Lv Hl; cbn [fold_left]; [reflexivity|].
  assert (Hj : (j < d)%nat) by (apply Hl; left; reflexivity). pose proof (col_length d B j HB Hj) as Lj.
  rewrite col_pad by lia. unfold proj, gs_coefficient. rewrite !pad_dot by congruence. rewrite pad_scale, pad_sub by (rewrite vscale_length; congruence).
  apply IH; [|intros j' Hj'; apply Hl; right; exact Hj']. rewrite vsub_length; rewrite ?vscale_length; congruence.
Qed.
Lemma extends_Q d m st st' i : extends d m st st' -> (i < d)%nat -> col (l_Q st') i = pad m (col (l_Q st) i).
Proof.
  intros (_ & HB & E & E' & F & EB) Hi. pose proof HB as [L _]. rewrite E, E', EB, !col_gs; [apply (gs_pad d); assumption|lia|].
  rewrite app_length, map_length; lia.
Qed.
Lemma extends_mu d m st st' i j : extends d m st st' -> (i < d)%nat -> (j < d)%nat -> mu st' i j = mu st i j.
Proof.
  intros X Hi Hj. unfold mu. rewrite !(extends_Q d m st st') by assumption. pose proof X as (_ & HB & E & E' & F & EB). pose proof HB as [L _].
  rewrite EB, col_pad by lia. pose proof (gram_schmidt_matrix d _ HB) as HQ. rewrite <- E in HQ.
  rewrite !pad_dot by (rewrite ?(col_length d _ _ HQ Hj), ?(col_length d _ _ HB Hi); reflexivity). reflexivity.
Qed.
Lemma set_col_app P E k v : (k < length P)%nat -> set_col (P ++ E) k v = set_col P k v ++ E.
Proof.
  intros H. unfold set_col. rewrite firstn_app, skipn_app. replace (k - length P)%nat with 0%nat by lia. replace (S k - length P)%nat with 0%nat by lia.
  cbn [firstn skipn]. rewrite app_nil_r, <- app_assoc. reflexivity.
Qed.
Lemma set_col_map m M k v : set_col (map (pad m) M) k (pad m v) = map (pad m) (set_col M k v).
Proof. unfold set_col. rewrite map_app, firstn_map, skipn_map. reflexivity. Qed.
Lemma extends_reduce1 d m st st' k j : extends d m st st' -> (k < d)%nat -> (j < d)%nat ->
  extends d m (lll_reduce1 k st j) (lll_reduce1 k st' j).
Proof.
  intros X Hk Hj. unfold lll_reduce1. rewrite (extends_mu d m st st') by assumption. destruct (Rltb _ _); [|exact X].
  destruct X as (EK & HB & E & E' & F & EB). pose proof HB as [L _].
  pose proof (col_length d _ _ HB Hk) as Lk. pose proof (col_length d _ _ HB Hj) as Lj.
  split; [exact EK|]. split; [|split; [reflexivity|split; [reflexivity|exists F]]].
  - apply set_col_matrix; [assumption..|]. rewrite vsub_length; rewrite ?vscale_length; congruence.
  - cbn [l_B]. rewrite EB, !col_pad by lia. rewrite pad_scale, pad_sub by (rewrite vscale_length; congruence).
    rewrite set_col_app by (rewrite map_length; lia). rewrite set_col_map. reflexivity.
Qed.
Lemma reduce1_k k st j : l_k (lll_reduce1 k st j) = l_k st.
Proof. unfold lll_reduce1. destruct (Rltb _ _); reflexivity. Qed.
Lemma extends_reduce d m st st' : extends d m st st' -> (l_k st < d)%nat ->
  extends d m (lll_reduce st) (lll_reduce st') /\ l_k (lll_reduce st) = l_k st.
Proof.
  intros X H. unfold lll_reduce. replace (l_k st') with (l_k st) by (symmetry; apply X).
  assert (Hl : forall j, In j (rev (range 0 (l_k st))) -> (j < d)%nat) by (intros j; rewrite <- in_rev; unfold range; rewrite in_seq; lia).
  assert (G : forall k l st st', (k < d)%nat -> extends d m st st' -> (forall j, In j l -> (j < d)%nat) ->
     extends d m (fold_left (lll_reduce1 k) l st) (fold_left (lll_reduce1 k) l st') /\ l_k (fold_left (lll_reduce1 k) l st) = l_k st).
  { clear. intros k l. induction l as [|j l IH]; intros st st' Hk X Hl; cbn [fold_left]; [auto|]. rewrite <- (reduce1_k k st j).
    apply IH; [exact Hk|apply extends_reduce1; [assumption..|apply Hl; left; reflexivity]|intros; apply Hl; right; assumption]. }
  apply G; assumption.
Qed.
Lemma extends_turn d m delta st st' : extends d m st st' -> (1 <= l_k st < d)%nat ->
  extends d m (lll_turn delta st) (lll_turn delta st').
Proof.
  intros X [H1 H]. destruct (extends_reduce d m st st' X H) as [Y K]. unfold lll_turn. set (s := lll_reduce st) in *. set (s' := lll_reduce st') in *.
  cbv zeta. replace (l_k s') with (l_k s) by (symmetry; apply Y). rewrite K.
  rewrite (extends_mu d m s s'), !(extends_Q d m s s') by (assumption || lia).
  pose proof Y as (EK & HB & E & E' & F & EB). pose proof HB as [L _].
  rewrite !pad_dot by reflexivity. destruct (Rltb _ _).
  - split; [reflexivity|]. split; [exact HB|]. split; [exact E|]. split; [exact E'|]. exists F; exact EB.
  - split; [reflexivity|]. split; [apply swap_matrix; [assumption|lia..]|]. split; [reflexivity|]. split; [reflexivity|]. exists F. cbn [l_B].
    unfold swap_cols. rewrite EB, !col_pad by lia. rewrite set_col_app, set_col_map by (rewrite map_length; lia).
    rewrite set_col_app, set_col_map by (rewrite map_length, set_col_length; lia). reflexivity.
Qed.
Lemma turn_k delta st : (1 <= l_k (lll_turn delta st))%nat.
Proof. unfold lll_turn. destruct (Rltb _ _); cbn; lia. Qed.
Lemma forever_extends d m delta st st' : extends d m st st' -> (1 <= l_k st)%nat -> forever delta st -> forever delta st'.
Proof.
  intros X H1 F t. assert (G : extends d m (turns delta t st) (turns delta t st')).
  { revert st st' X H1 F. induction t as [|t IH]; intros st st' X H1 F; cbn [turns]; [exact X|]. apply IH.
    - apply extends_turn; [exact X|]. pose proof (F 0%nat) as F0; cbn [turns] in F0. destruct X as (_ & [L _] & _). lia.
    - apply turn_k.
    - intros u. apply (F (S u)). }
  specialize (F t). destruct G as (EK & _ & _ & _ & E & EB). rewrite EB, app_length, map_length, EK. lia.
Qed.

(** The bad input: an exact Cholesky factor. *)
Definition bad5 : list (list Q) :=
  [[15; 0; 0; 0; 0]; [7; 13; 0; 0; 0]; [-7#1; 6; 10; 0; 0]; [-7#1; 6; 4; 8; 0]; [7; 6; -5#1; -4#1; 6]].
Lemma bad5_cycle : exists s0 s, qinit bad5 = Some s0 /\ qturns 2 s0 = Some s /\ qturns 4 s = Some s /\
  (forall t, (t < 2)%nat -> exists u, qturns t s0 = Some u /\ (q_k u < length (q_B u))%nat) /\
  (forall t, (t < 4)%nat -> exists u, qturns t s = Some u /\ (q_k u < length (q_B u))%nat).
Proof.
  eexists; eexists. split; [vm_compute; reflexivity|]. split; [vm_compute; reflexivity|]. split; [vm_compute; reflexivity|].
  split; intros t Ht; do 4 (destruct t as [|t]; [eexists; split; [vm_compute; reflexivity|vm_compute; lia]|]); lia.
Qed.
Lemma bad5_forever : forever (3 / 4) (lll_init (RM bad5)).
Proof.
  destruct bad5_cycle as (s0 & s & E0 & E1 & E2 & H0 & H1). rewrite (qinit_ok _ _ E0).
  assert (B : forall t u, (q_k u < length (q_B u))%nat -> turns (3 / 4) t (RS s0) = RS u -> (l_k (turns (3 / 4) t (RS s0)) < length (l_B (turns (3 / 4) t (RS s0))))%nat).
  { intros t u Hu ->. cbn. unfold RM; rewrite map_length. exact Hu. }
  apply (later_forever _ 2).
  - intros t Ht. destruct (H0 t Ht) as (u & Eu & Hu). apply (B t u Hu). apply qturns_ok, Eu.
  - rewrite (qturns_ok _ _ _ E1). apply (periodic_forever _ 4); [lia|apply qturns_ok, E2|].
    intros t Ht. destruct (H1 t Ht) as (u & Eu & Hu). rewrite (qturns_ok _ _ _ Eu). cbn. unfold RM; rewrite map_length. exact Hu.
Qed.

(** Triangular matrices with non-zero diagonal are independent. *)
Lemma triangular_independent n B : (forall i j, (i < j < n)%nat -> at2 0%R B i j = 0%R) -> (forall i, (i < n)%nat -> at2 0%R B i i <> 0%R) -> independent n B.
Proof.
  intros U D c H. assert (G : forall d h, (d <= n)%nat -> (n - d <= h < n)%nat -> c h = 0%R).
  { induction d as [|d IH]; intros h Hd Hh; [lia|]. destruct (Nat.eq_dec h (n - S d)) as [->|N]; [|apply IH; lia].
    set (k := (n - S d)%nat) in *. assert (Hk : (k < n)%nat) by (unfold k; lia). specialize (H k Hk). rewrite (sumn_single n _ k Hk) in H.
    - apply Rmult_integral in H as [H|H]; [exact H|]. elim (D k Hk H).
    - intros i Hi N. destruct (Nat.lt_ge_cases i k) as [L|G]; [rewrite U by lia; ring|]. rewrite IH by lia. ring. }
  intros h Hh. apply (G n h); lia.
Qed.

(** The bad input, extended to more columns by those of the identity. *)
Definition bad (n : nat) : list (list R) :=
  mk2 n n (fun i j => if (i <? 5)%nat then (if (j <? 5)%nat then at2 0%R (RM bad5) i j else 0%R) else if (i =? j)%nat then 1%R else 0%R).
Lemma RM_bad5 : matrix 5 5 (RM bad5).
Proof. split; [reflexivity|repeat constructor]. Qed.
Lemma bad_split m : exists E, bad (5 + m) = map (pad m) (RM bad5) ++ E.
Proof.
  unfold bad, mk2. rewrite seq_app, map_app. eexists. f_equal.
  assert (Z : forall i, (i < 5)%nat -> map (fun j => if (i <? 5)%nat then (if (j <? 5)%nat then at2 0%R (RM bad5) i j else 0%R) else if (i =? j)%nat then 1%R else 0%R) (seq 0 (5 + m)) = pad m (map (at2 0%R (RM bad5) i) (seq 0 5))).
  { intros i Hi. rewrite seq_app, map_app. unfold pad. apply Nat.ltb_lt in Hi as Hi'. rewrite Hi'. f_equal.
    assert (G : forall k s, (5 <= s)%nat -> map (fun j => if (j <? 5)%nat then at2 0%R (RM bad5) i j else 0%R) (seq s k) = repeat 0%R k).
    { induction k as [|k IH]; intros s Hs; [reflexivity|]. cbn [seq map repeat]. rewrite IH by lia. destruct (s <? 5)%nat eqn:Es; [apply Nat.ltb_lt in Es; lia|reflexivity]. }
    apply G; lia. }
  cbn [seq map RM bad5]. rewrite !Z by lia. reflexivity.
Qed.
Lemma bad_loops n fuel : (5 <= n)%nat -> lll fuel (bad n) = Raise LoopForever.
Proof.
  intros Hn. unfold lll. apply forever_loops. destruct (bad_split (n - 5)) as [E HE]. replace (5 + (n - 5))%nat with n in HE by lia.
  apply (forever_extends 5 (n - 5) _ (lll_init (RM bad5))); [|cbn; lia|apply bad5_forever].
  split; [reflexivity|]. split; [apply RM_bad5|]. split; [reflexivity|]. split; [reflexivity|]. exists E; exact HE.
Qed.
Lemma bad_entry n i j : (i < n)%nat -> (j < n)%nat ->
  at2 0%R (bad n) i j = (if (i <? 5)%nat then (if (j <? 5)%nat then at2 0%R (RM bad5) i j else 0%R) else if (i =? j)%nat then 1%R else 0%R).
Proof. intros Hi Hj. unfold bad. rewrite at2_mk2 by assumption. reflexivity. Qed.
Lemma bad_triangular n i j : (i < j < n)%nat -> at2 0%R (bad n) i j = 0%R.
Proof.
  intros H. rewrite bad_entry by lia. destruct (i <? 5)%nat eqn:Ei; [|destruct (Nat.eqb_spec i j); [lia|reflexivity]].
  destruct (j <? 5)%nat eqn:Ej; [|reflexivity]. apply Nat.ltb_lt in Ej.
  do 5 (destruct i as [|i]; [do 5 (destruct j as [|j]; [first [lia|unfold at2, RM, RV, bad5; cbn [map nth]; unfold Q2R; cbn; lra]|]); lia|]). lia.
Qed.
Lemma bad_diagonal n i : (i < n)%nat -> (0 < at2 0%R (bad n) i i)%R.
Proof.
  intros H. rewrite bad_entry by lia. rewrite Nat.eqb_refl. destruct (i <? 5)%nat eqn:Ei; [|lra]. apply Nat.ltb_lt in Ei.
  do 5 (destruct i as [|i]; [unfold at2, RM, RV, bad5; cbn [map nth]; unfold Q2R; cbn; lra|]). lia.
Qed.
