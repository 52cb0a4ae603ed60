(** HarmonicProofs.v -- lemmas on the inner product of edge cochains and least squares. *)
From Coq Require Import Relations.
From Verif Require Import Base BaseProofs CombinatorialModel SpecSimplex CombinatorialProofs
  DeltaModel SpecRips RipsProofs DeltaProofs DeltaFacts RealBase RealSum
  LLLModel SpecLLL LLLProofs ToroidalModel ToroidalProofs SpecHarmonic.
Local Open Scope R_scope.

(** ** Products of sparse matrices *)
Lemma row_val_cons (e : nat * nat * Z) es (v : list R) :
  row_val (K := Rring) (e :: es) v = IZR (snd e) * nth (snd (fst e)) v 0 + row_val (K := Rring) es v.
Proof. unfold row_val, rsum; cbn [map fold_right]; rewrite rofZ_R; reflexivity. Qed.
Lemma row_val_app es es' (v : list R) :
  row_val (K := Rring) (es ++ es') v = row_val (K := Rring) es v + row_val (K := Rring) es' v.
Proof.
  induction es as [|e es IH]; [rewrite row_val0; cbn [app r0 Rring]; symmetry; apply Rplus_0_l|].
  cbn [app]; rewrite !row_val_cons, IH; change (carrier Rring) with R; symmetry; apply Rplus_assoc.
Qed.
Lemma row_val_scaled r (c : Z) es (v : list R) :
  row_val (K := Rring) (map (fun b => (r, snd (fst b), (c * snd b)%Z)) es) v = IZR c * row_val (K := Rring) es v.
Proof.
  induction es as [|e es IH]; [cbn [map]; rewrite row_val0; symmetry; apply Rmult_0_r|].
  cbn [map]; rewrite !row_val_cons, IH; cbn [fst snd]; rewrite mult_IZR; change (carrier Rring) with R; set (q := row_val (K := Rring) es v); change (carrier Rring) with R in q.
  rewrite Rmult_plus_distr_l, Rmult_assoc; reflexivity.
Qed.

Lemma spmm_matvec A B P (v : list R) : spmm A B = Ok P -> length v = s_cols B ->
  Forall (fun e => (snd (fst e) < s_cols A)%nat) (s_entries A) ->
  exists u, matvec (K := Rring) B v = Ok u /\ matvec (K := Rring) P v = matvec (K := Rring) A u.
Proof.
  unfold spmm; destruct (Nat.eqb_spec (s_cols A) (s_rows B)) as [E|]; [|discriminate].
  intros H; injection H as <-. intros Lv F.
  destruct (matvec_ok (K := Rring) B v Lv) as (u & Eu & Lu & Hu). exists u; split; [exact Eu|].
  unfold matvec; cbn [s_rows s_cols s_entries]. change (carrier Rring) with R in *. rewrite (proj2 (Nat.eqb_eq _ _) Lv).
  rewrite (proj2 (Nat.eqb_eq _ _) (eq_trans Lu (eq_sym E))). f_equal. unfold mk1; apply map_ext; intros r.
  match goal with |- rsum (map _ (filter _ ?X)) = rsum (map _ (filter _ ?Y)) => set (PE := X); set (AE := Y) end.
  change (row_val (K := Rring) (filter (fun e => (fst (fst e) =? r)%nat) PE) v =
          row_val (K := Rring) (filter (fun e => (fst (fst e) =? r)%nat) AE) u).
  subst PE. unfold AE; clear AE. induction F as [|a l Ha F IH]; [reflexivity|].
  cbn [flat_map filter]. rewrite filter_app, row_val_app, IH; clear IH.
  assert (G : filter (fun e => (fst (fst e) =? r)%nat)
       (map (fun b => (fst (fst a), snd (fst b), (snd a * snd b)%Z)) (filter (fun b => (fst (fst b) =? snd (fst a))%nat) (s_entries B))) =
     if (fst (fst a) =? r)%nat then map (fun b => (fst (fst a), snd (fst b), (snd a * snd b)%Z)) (filter (fun b => (fst (fst b) =? snd (fst a))%nat) (s_entries B)) else []).
  { destruct (Nat.eqb_spec (fst (fst a)) r) as [->|Nr]; induction (filter _ (s_entries B)) as [|b bs IHb]; cbn [map filter fst]; try reflexivity.
    - rewrite Nat.eqb_refl, IHb; reflexivity.
    - rewrite (proj2 (Nat.eqb_neq _ _) Nr); exact IHb. }
  rewrite G; clear G. destruct (fst (fst a) =? r)%nat; [|rewrite row_val0; apply Rplus_0_l].
  rewrite row_val_scaled, row_val_cons. f_equal. f_equal. rewrite E in Ha. rewrite (nth_error_nth _ _ 0 (Hu _ Ha)); reflexivity.
Qed.

(** ** Sums over edges *)
Lemma rank2 i j : rank [i; j] = (i + comb j 2)%nat.
Proof. unfold rank; cbn [rank_from]; rewrite comb_1; lia. Qed.

Lemma sum_ranks n F : sumn (comb n 2) F = sumn n (fun j => sumn j (fun i => F (rank [i; j]))).
Proof.
  induction n as [|n IH]; [reflexivity|]. rewrite comb_S, comb_1, Nat.add_comm, sumn_split, IH. cbn [sumn]. f_equal.
  apply sumn_ext; intros i _; rewrite rank2; f_equal; lia.
Qed.

Section Edges.
Variables (dm : list (list R)) (t : R) (N Dm : nat).
Hypothesis Hsq : square dm.
Notation n := (length dm).
Hypothesis HN : (n <= N)%nat.
Hypothesis HD : (1 <= Dm)%nat.
Hypothesis Hn : (Z.of_nat n <= 65536)%Z.
Notation T := (combinatorial_number_system_table N Dm).
Notation closeb := (closeb Rltb dm t).

Lemma close_dec i j : (i < n)%nat -> (j < n)%nat ->
  (if Rlt_dec (at2 t dm i j) t then true else false) = closeb i j.
Proof.
  intros Hi Hj. unfold RipsProofs.closeb, at2. destruct (nth_error dm i) as [row|] eqn:E; [|apply nth_error_None in E; lia].
  rewrite (nth_error_nth _ _ [] E). unfold square in Hsq; rewrite Forall_forall in Hsq. pose proof (Hsq row (nth_error_In _ _ E)) as L.
  destruct (nth_error row j) as [x|] eqn:E2; [|apply nth_error_None in E2; lia]. rewrite (nth_error_nth _ _ t E2).
  unfold Rltb; reflexivity.
Qed.

Lemma edge_sum_closeb F : edge_sum dm t F = sumn n (fun j => sumn j (fun i => if closeb i j then F i j else 0)).
Proof.
  unfold edge_sum; apply sumn_ext; intros j Hj; apply sumn_ext; intros i Hi. rewrite <- close_dec by lia.
  destruct (Rlt_dec _ _); reflexivity.
Qed.

Lemma edge_sum_ext F G : (forall i j, (i < j < n)%nat -> close Rltb dm t i j -> F i j = G i j) -> edge_sum dm t F = edge_sum dm t G.
Proof.
  intros H; rewrite !edge_sum_closeb; apply sumn_ext; intros j Hj; apply sumn_ext; intros i Hi.
  destruct (closeb i j) eqn:E; [|reflexivity]. apply H; [lia|apply closeb_close; exact E].
Qed.
Lemma edge_sum_add F G : edge_sum dm t (fun i j => F i j + G i j) = edge_sum dm t F + edge_sum dm t G.
Proof.
  unfold edge_sum; rewrite <- sumn_add; apply sumn_ext; intros j _; rewrite <- sumn_add; apply sumn_ext; intros i _.
  destruct (Rlt_dec _ _); ring.
Qed.
Lemma edge_sum_scal c F : edge_sum dm t (fun i j => c * F i j) = c * edge_sum dm t F.
Proof.
  unfold edge_sum; rewrite <- sumn_scal; apply sumn_ext; intros j _; rewrite <- sumn_scal; apply sumn_ext; intros i _.
  destruct (Rlt_dec _ _); ring.
Qed.
Lemma edge_sum_nonneg F : (forall i j, 0 <= F i j) -> 0 <= edge_sum dm t F.
Proof.
  intros H; unfold edge_sum; apply sumn_nonneg; intros j _; apply sumn_nonneg; intros i _.
  destruct (Rlt_dec _ _); [apply H|lra].
Qed.
Lemma edge_sum_zero F : (forall i j, 0 <= F i j) -> edge_sum dm t F = 0 ->
  forall i j, (i < j < n)%nat -> close Rltb dm t i j -> F i j = 0.
Proof.
  intros H E i j Hij Hc. rewrite edge_sum_closeb in E.
  assert (Nj : forall j, 0 <= sumn j (fun i => if closeb i j then F i j else 0)).
  { intros j'; apply sumn_nonneg; intros i' _; destruct (closeb i' j'); [apply H|lra]. }
  pose proof (sumn_zero_all n _ (fun j' _ => Nj j') E j ltac:(lia)) as E2. cbv beta in E2.
  assert (Ni : forall i', (i' < j)%nat -> 0 <= (fun i => if closeb i j then F i j else 0) i').
  { intros i' _; cbv beta; destruct (closeb i' j); [apply H|lra]. }
  pose proof (sumn_zero_all j _ Ni E2 i ltac:(lia)) as E3. cbv beta in E3.
  apply closeb_close in Hc; rewrite Hc in E3; exact E3.
Qed.

Lemma edge_value_rank h i j : (i < j < n)%nat -> edge_value T h i j = nth (rank [i; j]) h 0.
Proof.
  intros Hij; unfold edge_value. rewrite (forward_ok N Dm n 1) by (assumption || lia || apply simplex2; exact Hij). reflexivity.
Qed.

Lemma inner_edges u v : inner (comb n 2) u v = sumn n (fun j => sumn j (fun i => nth (rank [i; j]) u 0 * nth (rank [i; j]) v 0)).
Proof. unfold inner; apply sum_ranks. Qed.

Variables (junk : nat -> Z) (M0 : sparse) (W : sparse * sparse).
Hypothesis E0 : make_delta0 Rltb junk dm t T = Ok M0.
Hypothesis EW : make_inner_product Rltb junk dm t T = Ok W.

Lemma W_eq : W = (mkSparse (comb n 2) (comb n 2) (flat_map entw (rl Rltb dm t 1)), mkSparse (comb n 2) (comb n 2) (flat_map entw (rl Rltb dm t 1))).
Proof.
  rewrite (inner_product_ok Rltb junk dm t N Dm Hsq HN HD) in EW by (pose proof (comb_2 n); nia).
  apply Ok_inj in EW; symmetry; exact EW.
Qed.
Lemma M0_eq : M0 = mkSparse (comb n 2) n (flat_map ent0 (rl Rltb dm t 1)).
Proof. rewrite (delta0_ok Rltb junk dm t N Dm Hsq HN HD (edges_fit _ Hn)) in E0; apply Ok_inj in E0; symmetry; exact E0. Qed.

Lemma W_apply (g : list R) : length g = comb n 2 ->
  exists h, matvec (K := Rring) (fst W) g = Ok h /\ matvec (K := Rring) (snd W) g = Ok h /\ length h = comb n 2 /\
    forall i j, (i < j < n)%nat -> nth (rank [i; j]) h 0 = if closeb i j then nth (rank [i; j]) g 0 else 0.
Proof.
  intros Lg. rewrite W_eq; cbn [fst snd].
  destruct (inner_apply Rltb dm t N Dm HN Rring _ g eq_refl HD Lg) as (h & E & Lh & H).
  exists h; split; [exact E|]. split; [exact E|]. split; [exact Lh|]. intros i j Hij.
  assert (Hs : simplex n 1 [i; j]) by (apply simplex2; exact Hij).
  pose proof (rank_lt_d n 1 _ Hs) as Hr.
  destruct (H i j (nth (rank [i; j]) g 0) Hij) as [H1 H2].
  { apply (value_at_rank dm N Dm HN g 1); try assumption. apply nth_error_nth'; rewrite Lg; exact Hr. }
  destruct (closeb i j) eqn:C.
  - apply closeb_close in C. specialize (H1 C). rewrite (value_at_rank dm N Dm HN h 1) in H1 by (assumption || lia).
    apply (nth_error_nth _ _ 0) in H1; exact H1.
  - assert (NC : ~ close Rltb dm t i j) by (rewrite <- closeb_close, C; discriminate).
    specialize (H2 NC). rewrite (value_at_rank dm N Dm HN h 1) in H2 by (assumption || lia).
    apply (nth_error_nth _ _ 0) in H2; exact H2.
Qed.

Lemma D_apply (f : list R) : length f = n ->
  exists g, matvec (K := Rring) M0 f = Ok g /\ length g = comb n 2 /\
    forall i j, (i < j < n)%nat -> nth (rank [i; j]) g 0 = if closeb i j then nth i f 0 - nth j f 0 else 0.
Proof.
  intros Lf. destruct (delta0_apply Rltb dm t N Dm HN Rring _ f M0_eq HD Lf) as (g & Eg & Lg & Hg).
  exists g; split; [exact Eg|]. split; [exact Lg|]. intros i j Hij.
  assert (Hs : simplex n 1 [i; j]) by (apply simplex2; exact Hij).
  destruct (Hg i j (nth i f 0) (nth j f 0) Hij) as [H1 H2]; [apply nth_error_nth'; lia..|].
  destruct (closeb i j) eqn:C.
  - apply closeb_close in C; specialize (H1 C).
    rewrite (value_at_rank dm N Dm HN g 1) in H1 by (assumption || lia). apply (nth_error_nth _ _ 0) in H1; exact H1.
  - assert (NC : ~ close Rltb dm t i j) by (rewrite <- closeb_close, C; discriminate).
    specialize (H2 NC). rewrite (value_at_rank dm N Dm HN g 1) in H2 by (assumption || lia).
    apply (nth_error_nth _ _ 0) in H2; exact H2.
Qed.

Lemma P_apply P (y : list R) : spmm (snd W) M0 = Ok P -> length y = n ->
  exists g, matvec (K := Rring) P y = Ok g /\ length g = comb n 2 /\
    forall i j, (i < j < n)%nat -> nth (rank [i; j]) g 0 = if closeb i j then nth i y 0 - nth j y 0 else 0.
Proof.
  intros EP Ly. destruct (spmm_matvec (snd W) M0 P y EP) as (u & Eu & Ep).
  - rewrite M0_eq; exact Ly.
  - rewrite W_eq; cbn [snd s_entries s_cols]. apply Forall_forall; intros e He. apply in_flat_map in He; destruct He as (s & Hs & [<-|[]]).
    cbn [fst snd]. apply rl_simplex in Hs. apply (rank_lt_d n 1 s Hs).
  - destruct (D_apply y Ly) as (g & Eg & Lg & Hg). change (carrier Rring) with R in *. rewrite Eu in Eg; apply Ok_inj in Eg; subst g.
    destruct (W_apply u Lg) as (h & _ & Eh & Lh & Hh). exists h. rewrite Ep; split; [exact Eh|]. split; [exact Lh|].
    intros i j Hij. etransitivity; [exact (Hh i j Hij)|]. pose proof (Hg i j Hij) as Q; change (carrier Rring) with R in *. rewrite Q. destruct (closeb i j); reflexivity.
Qed.

(** The Gram matrix of edge cochains. *)
Lemma transpose_W : transpose (fst W) = fst W.
Proof.
  rewrite W_eq; cbn [fst]. unfold transpose; cbn [s_rows s_cols s_entries]. f_equal.
  induction (rl Rltb dm t 1) as [|s l IH]; [reflexivity|]. cbn [flat_map]; rewrite map_app, IH; reflexivity.
Qed.

Lemma gram_ok hs : Forall (fun h => length h = comb n 2) hs ->
  exists gm, gram_matrix hs (fst W) = Ok gm /\
    forall a b h h', nth_error hs a = Some h -> nth_error hs b = Some h' ->
      at2 0 gm a b = edge_sum dm t (fun i j => edge_value T h i j * edge_value T h' i j).
Proof.
  intros F.
  set (G := fun h h' => edge_sum dm t (fun i j => edge_value T h i j * edge_value T h' i j)).
  assert (One : forall h h', In h hs -> In h' hs ->
    (vW <- matvec (K := Rring) (transpose (fst W)) h ;; Ok (vdot vW h')) = Ok (G h h')).
  { intros h h' Hh Hh'. rewrite Forall_forall in F. rewrite transpose_W.
    destruct (W_apply h (F h Hh)) as (w & -> & _ & Lw & Hw). cbn [bind]. change (carrier Rring) with R in *. f_equal.
    rewrite (vdot_inner (comb n 2)) by (auto using F). rewrite inner_edges. unfold G. rewrite edge_sum_closeb.
    apply sumn_ext; intros j Hj; apply sumn_ext; intros i Hi. rewrite !edge_value_rank, (Hw i j) by lia.
    destruct (closeb i j); ring. }
  exists (map (fun h => map (fun h' => G h h') hs) hs). split.
  - unfold gram_matrix. apply map_res_ok. intros h Hh. apply map_res_ok. intros h' Hh'. apply One; assumption.
  - intros a b h h' Ha Hb. unfold at2. rewrite (nth_error_nth _ a []  (map_nth_error _ _ _ Ha)).
    rewrite (nth_error_nth _ b 0 (map_nth_error _ _ _ Hb)). reflexivity.
Qed.

(** ** Least squares *)
Variable lsqr : sparse -> list R -> list R.
Hypothesis HL : least_squares lsqr.

Lemma norm_edges (b u c : list R) y : length b = comb n 2 -> length u = comb n 2 -> length c = comb n 2 -> length y = n ->
  (forall i j, (i < j < n)%nat -> nth (rank [i; j]) b 0 = if closeb i j then nth (rank [i; j]) c 0 else 0) ->
  (forall i j, (i < j < n)%nat -> nth (rank [i; j]) u 0 = if closeb i j then nth i y 0 - nth j y 0 else 0) ->
  inner (comb n 2) (vsub b u) (vsub b u) =
  edge_sum dm t (fun i j => (nth (rank [i; j]) c 0 - (nth i y 0 - nth j y 0)) ^ 2).
Proof.
  intros Lb Lu Lc Ly Hb Hu. rewrite inner_edges, edge_sum_closeb.
  apply sumn_ext; intros j Hj; apply sumn_ext; intros i Hi. rewrite !nth_vsub by congruence.
  rewrite (Hb i j), (Hu i j) by lia. destruct (closeb i j); ring.
Qed.

Lemma harmonic_ok (c : list Z) : length c = comb n 2 ->
  exists h f, integrate_harmonic_representative lsqr c M0 (snd W) = Ok (h, f) /\
    length f = n /\ length h = comb n 2 /\
    (forall i j, (i < j < n)%nat -> nth (rank [i; j]) h 0 =
      IZR (nth (rank [i; j]) c 0%Z) - (if closeb i j then nth i f 0 - nth j f 0 else 0)) /\
    forall y : nat -> R,
      edge_sum dm t (fun i j => nth (rank [i; j]) h 0 ^ 2) <=
      edge_sum dm t (fun i j => (IZR (nth (rank [i; j]) c 0%Z) - (y i - y j)) ^ 2).
Proof.
  intros Lc. set (cr := map IZR c). assert (Lcr : length cr = comb n 2) by (unfold cr; rewrite map_length; exact Lc).
  assert (Hcr : forall r, nth r cr 0 = IZR (nth r c 0%Z)) by (intros r; unfold cr; change 0 with (IZR 0%Z); apply map_nth).
  destruct (W_apply cr Lcr) as (b & _ & Eb & Lb & Hb).
  unfold integrate_harmonic_representative. fold cr.
  assert (EP : exists P, spmm (snd W) M0 = Ok P /\ s_rows P = comb n 2 /\ s_cols P = n).
  { unfold spmm. rewrite W_eq, M0_eq; cbn [snd s_rows s_cols]. rewrite Nat.eqb_refl. eexists; split; [reflexivity|]. split; reflexivity. }
  destruct EP as (P & EP & RP & CP). rewrite EP; cbn [bind]. change (carrier Rring) with R in *. rewrite Eb; cbn [bind].
  destruct (HL P b ltac:(congruence)) as [Lf Hmin]. set (f := lsqr P b) in *. rewrite CP in Lf.
  destruct (D_apply f Lf) as (g & Eg & Lg & Hg). change (carrier Rring) with R in *. rewrite Eg; cbn [bind].
  exists (vsub cr g), f. split; [reflexivity|]. split; [exact Lf|].
  split; [rewrite vsub_length; congruence|].
  assert (Hh : forall i j, (i < j < n)%nat -> nth (rank [i; j]) (vsub cr g) 0 =
      IZR (nth (rank [i; j]) c 0%Z) - (if closeb i j then nth i f 0 - nth j f 0 else 0)).
  { intros i j Hij; rewrite nth_vsub, Hcr, (Hg i j Hij) by congruence; reflexivity. }
  split; [exact Hh|]. intros y. set (yl := map y (seq 0 n)).
  assert (Lyl : length yl = n) by (unfold yl; rewrite map_length, seq_length; reflexivity).
  assert (Hyl : forall i, (i < n)%nat -> nth i yl 0 = y i).
  { intros i Hi. unfold yl. rewrite (nth_indep _ 0 (y 0%nat)) by (rewrite map_length, seq_length; exact Hi).
    rewrite map_nth, seq_nth by exact Hi; reflexivity. }
  destruct (P_apply P f EP Lf) as (u & Eu & Lu & Hu). destruct (P_apply P yl EP Lyl) as (v & Ev & Lv & Hv).
  specialize (Hmin yl u v ltac:(congruence) Eu Ev). rewrite Lb in Hmin.
  rewrite (norm_edges b u cr f Lb Lu Lcr Lf Hb Hu), (norm_edges b v cr yl Lb Lv Lcr Lyl Hb Hv) in Hmin.
  rewrite (edge_sum_ext _ (fun i j => nth (rank [i; j]) (vsub cr g) 0 ^ 2)) in Hmin.
  2:{ intros i j Hij Hc. rewrite (Hh i j Hij), Hcr. apply closeb_close in Hc; rewrite Hc; reflexivity. }
  rewrite (edge_sum_ext (fun i j => (nth (rank [i; j]) cr 0 - (nth i yl 0 - nth j yl 0)) ^ 2)
     (fun i j => (IZR (nth (rank [i; j]) c 0%Z) - (y i - y j)) ^ 2)) in Hmin; [exact Hmin|].
  intros i j Hij _. rewrite Hcr, !Hyl by lia. reflexivity.
Qed.

Lemma quadratic_zero a b : 0 <= b -> (forall s, 0 <= - 2 * s * a + s ^ 2 * b) -> a = 0.
Proof.
  intros Hb H. destruct (Req_dec a 0) as [E|E]; [exact E|exfalso].
  specialize (H (a / (b + 1))).
  assert (Q : - 2 * (a / (b + 1)) * a + (a / (b + 1)) ^ 2 * b = - (a * a) * (b + 2) / ((b + 1) * (b + 1))) by (field; lra).
  rewrite Q in H. assert (0 < a * a) by nra. assert (0 < (b + 1) * (b + 1)) by nra.
  assert (0 < a * a * (b + 2) / ((b + 1) * (b + 1))) by (apply Rdiv_lt_0_compat; nra).
  replace (- (a * a) * (b + 2) / ((b + 1) * (b + 1))) with (- (a * a * (b + 2) / ((b + 1) * (b + 1)))) in H by (field; lra). lra.
Qed.

Lemma harmonic_orthogonal (c : list Z) h f : length c = comb n 2 ->
  integrate_harmonic_representative lsqr c M0 (snd W) = Ok (h, f) ->
  forall g : nat -> R, edge_sum dm t (fun i j => nth (rank [i; j]) h 0 * (g i - g j)) = 0.
Proof.
  intros Lc E g. destruct (harmonic_ok c Lc) as (h' & f' & E' & Lf & Lh & Hh & Hmin). rewrite E in E'; injection E' as <- <-.
  apply (quadratic_zero _ (edge_sum dm t (fun i j => (g i - g j) ^ 2))).
  { apply edge_sum_nonneg; intros; apply pow2_ge_0. }
  intros s. specialize (Hmin (fun i => nth i f 0 + s * g i)).
  rewrite (edge_sum_ext (fun i j => (IZR (nth (rank [i; j]) c 0%Z) - _) ^ 2)
     (fun i j => nth (rank [i; j]) h 0 ^ 2 + ((- 2 * s) * (nth (rank [i; j]) h 0 * (g i - g j)) + s ^ 2 * (g i - g j) ^ 2))) in Hmin.
  2:{ intros i j Hij Hc. rewrite (Hh i j Hij). apply closeb_close in Hc; rewrite Hc; ring. }
  rewrite !edge_sum_add, !edge_sum_scal in Hmin. lra.
Qed.

Lemma harmonic_unique (c c' : list Z) h f h' f' (k : nat -> Z) : length c = comb n 2 -> length c' = comb n 2 ->
  integrate_harmonic_representative lsqr c M0 (snd W) = Ok (h, f) ->
  integrate_harmonic_representative lsqr c' M0 (snd W) = Ok (h', f') ->
  (forall i j, (i < j < n)%nat -> close Rltb dm t i j -> (nth (rank [i; j]) c' 0 = nth (rank [i; j]) c 0 + (k i - k j))%Z) ->
  (forall i j, (i < j < n)%nat -> close Rltb dm t i j -> nth (rank [i; j]) h' 0 = nth (rank [i; j]) h 0) /\
  (forall i j, (i < j < n)%nat -> close Rltb dm t i j ->
     nth i f' 0 - nth i f 0 - IZR (k i) = nth j f' 0 - nth j f 0 - IZR (k j)).
Proof.
  intros Lc Lc' E E' Hk.
  destruct (harmonic_ok c Lc) as (h1 & f1 & E1 & Lf & Lh & Hh & _). rewrite E in E1; injection E1 as <- <-.
  destruct (harmonic_ok c' Lc') as (h2 & f2 & E2 & Lf' & Lh' & Hh' & _). rewrite E' in E2; injection E2 as <- <-.
  set (kap := fun i => IZR (k i) - nth i f' 0 + nth i f 0).
  assert (D : forall i j, (i < j < n)%nat -> close Rltb dm t i j -> nth (rank [i; j]) h' 0 - nth (rank [i; j]) h 0 = kap i - kap j).
  { intros i j Hij Hc. rewrite (Hh i j Hij), (Hh' i j Hij), (Hk i j Hij Hc). apply closeb_close in Hc; rewrite Hc.
    unfold kap. rewrite plus_IZR, minus_IZR; ring. }
  assert (Z : edge_sum dm t (fun i j => (nth (rank [i; j]) h' 0 - nth (rank [i; j]) h 0) ^ 2) = 0).
  { rewrite (edge_sum_ext _ (fun i j => nth (rank [i; j]) h' 0 * (kap i - kap j) + (- 1) * (nth (rank [i; j]) h 0 * (kap i - kap j)))).
    - rewrite edge_sum_add, edge_sum_scal, (harmonic_orthogonal c' h' f' Lc' E' kap), (harmonic_orthogonal c h f Lc E kap); ring.
    - intros i j Hij Hc. rewrite <- (D i j Hij Hc); ring. }
  assert (Eq : forall i j, (i < j < n)%nat -> close Rltb dm t i j -> nth (rank [i; j]) h' 0 - nth (rank [i; j]) h 0 = 0).
  { intros i j Hij Hc. pose proof (edge_sum_zero (fun i j => (nth (rank [i; j]) h' 0 - nth (rank [i; j]) h 0) ^ 2) (fun i j => pow2_ge_0 _) Z i j Hij Hc) as Q. cbv beta in Q. nra. }
  split; intros i j Hij Hc; specialize (Eq i j Hij Hc); [lra|]. rewrite (D i j Hij Hc) in Eq. unfold kap in Eq. lra.
Qed.
End Edges.
