(** EMProofs.v -- lemmas about EMCoords. *)
From Coq Require Import Permutation Sorted.
From Verif Require Import RealSum Base BaseProofs CohomologyModel SpecCohomology CohomologyProofs
  SignProofs ParityProofs EMModel SpecEM DeltaFacts RepairProofs.

Lemma nth_error_map_nth {A} (l : list A) d p j k :
  nth_error p j = Some k -> nth_error (map (fun i => nth i l d) p) j = Some (nth k l d).
Proof. intros H; rewrite nth_error_map, H; reflexivity. Qed.

Lemma nth_error_firstn {A} (l : list A) n j : j < n -> nth_error (firstn n l) j = nth_error l j.
Proof.
  revert l j; induction n as [|n IH]; intros l j H; [lia|].
  destruct l as [|x l]; cbn [firstn]; [reflexivity|]. destruct j as [|j]; cbn [nth_error]; [reflexivity|].
  apply IH; lia.
Qed.

Lemma map_res_total {A B} (P : A -> B -> Prop) (f : A -> res B) l :
  (forall x, In x l -> exists y, f x = Ok y /\ P x y) ->
  exists l', map_res f l = Ok l' /\ Forall2 P l l'.
Proof.
  induction l as [|x l IH]; intros H; cbn [map_res].
  - exists []; split; [reflexivity|constructor].
  - destruct (H x (or_introl eq_refl)) as (y & E & Py); rewrite E; cbn [bind].
    destruct IH as (l' & El & F); [intros z Hz; apply H; right; exact Hz|].
    rewrite El; cbn [bind]; exists (y :: l'); split; [reflexivity|constructor; assumption].
Qed.

(** ** Sorting loop *)
Section Sort.
Variable argsort : list R -> list nat.
Hypothesis argsort_ok : forall l, is_argsort Rle 0%R l (argsort l).

Definition key (bd : R * R) : R := (fst bd - snd bd)%R.

Lemma sort_step_ok i dgms cocycles dgm cs :
  nth_error dgms i = Some dgm -> nth_error cocycles i = Some cs -> length cs = length dgm ->
  let p := argsort (map key dgm) in
  exists dgms' cocycles', sort_step argsort i (dgms, cocycles) = Ok (dgms', cocycles') /\
    length dgms' = length dgms /\ length cocycles' = length cocycles /\
    nth_error dgms' i = Some (map (fun k => nth k dgm (0, 0)%R) p) /\
    nth_error cocycles' i = Some (map (fun k => nth k cs (mkCocycle 0 [])) p) /\
    (forall j, j <> i -> nth_error dgms' j = nth_error dgms j /\
                         nth_error cocycles' j = nth_error cocycles j).
Proof.
  intros E1 E2 L p.
  assert (P : Forall (fun k => k < length dgm) p).
  { apply perm_seq_lt; destruct (argsort_ok (map key dgm)) as [P _].
    rewrite map_length in P; exact P. }
  unfold sort_step; cbn [fst snd]; unfold get at 1; rewrite E1; cbn [bind].
  change (argsort (map (fun bd => (fst bd - snd bd)%R) dgm)) with p.
  rewrite (map_res_get dgm (0, 0)%R p) by exact P; cbn [bind].
  destruct (set_at_ok IndexError dgms i (map (fun k => nth k dgm (0, 0)%R) p) (some_lt _ _ _ E1))
    as (d' & -> & L1 & N1 & O1 & _); cbn [bind].
  unfold get at 1; rewrite E2; cbn [bind].
  rewrite (map_res_get cs (mkCocycle 0 []) p) by (rewrite L; exact P); cbn [bind].
  destruct (set_at_ok IndexError cocycles i (map (fun k => nth k cs (mkCocycle 0 [])) p) (some_lt _ _ _ E2))
    as (c' & -> & L2 & N2 & O2 & _); cbn [bind].
  exists d', c'; split; [reflexivity|]. repeat (split; [assumption|]).
  intros j Hj; split; [apply O1|apply O2]; exact Hj.
Qed.

Definition sorted_of (dgm : list (R * R)) : list nat := argsort (map key dgm).

Lemma sort_loop_ok maxdim dgms cocycles : maxdim < length dgms -> length cocycles = length dgms ->
  (forall i dgm cs, 1 <= i -> nth_error dgms i = Some dgm -> nth_error cocycles i = Some cs ->
     length cs = length dgm) ->
  exists st, for_in (range 1 (maxdim + 1)) (sort_step argsort) (dgms, cocycles) = Ok st /\
    length (fst st) = length dgms /\ length (snd st) = length dgms /\
    (forall i dgm cs, nth_error dgms i = Some dgm -> nth_error cocycles i = Some cs ->
       (1 <= i <= maxdim ->
          nth_error (fst st) i = Some (map (fun k => nth k dgm (0, 0)%R) (sorted_of dgm)) /\
          nth_error (snd st) i = Some (map (fun k => nth k cs (mkCocycle 0 [])) (sorted_of dgm))) /\
       (~ 1 <= i <= maxdim -> nth_error (fst st) i = Some dgm /\ nth_error (snd st) i = Some cs)).
Proof.
  intros H1 H2 H3.
  destruct (for_in_inv (range 1 (maxdim + 1)) (sort_step argsort)
    (fun pre st => length (fst st) = length dgms /\ length (snd st) = length dgms /\
      (forall i dgm cs, nth_error dgms i = Some dgm -> nth_error cocycles i = Some cs ->
       (In i pre ->
          nth_error (fst st) i = Some (map (fun k => nth k dgm (0, 0)%R) (sorted_of dgm)) /\
          nth_error (snd st) i = Some (map (fun k => nth k cs (mkCocycle 0 [])) (sorted_of dgm))) /\
       (~ In i pre -> nth_error (fst st) i = Some dgm /\ nth_error (snd st) i = Some cs)))
    (dgms, cocycles)) as (st & E & L1 & L2 & H).
  - cbn [fst snd]; repeat split; try assumption; contradiction.
  - intros pre i post [d c] El (L1 & L2 & H); cbn [fst snd] in *.
    assert (Hi : 1 <= i < maxdim + 1).
    { apply in_range; rewrite El; apply in_elt. }
    assert (Hn : ~ In i pre).
    { assert (ND : NoDup (range 1 (maxdim + 1))) by apply seq_NoDup.
      rewrite El in ND; apply NoDup_remove_2 in ND; intros G; apply ND, in_or_app; left; exact G. }
    destruct (nth_error dgms i) as [dgm|] eqn:E1; [|apply nth_error_None in E1; lia].
    destruct (nth_error cocycles i) as [cs|] eqn:E2; [|apply nth_error_None in E2; lia].
    destruct (H i dgm cs E1 E2) as [_ G]; destruct (G Hn) as [G1 G2].
    destruct (sort_step_ok i d c dgm cs G1 G2 (H3 i dgm cs (proj1 Hi) E1 E2))
      as (d' & c' & Es & M1 & M2 & N1 & N2 & O).
    exists (d', c'); split; [exact Es|]; cbn [fst snd].
    split; [congruence|split; [congruence|]].
    intros j dgm' cs' F1 F2; destruct (Nat.eq_dec j i) as [->|Hj].
    + rewrite E1 in F1; rewrite E2 in F2; injection F1 as <-; injection F2 as <-; split.
      * intros _; split; assumption.
      * intros G'; exfalso; apply G', in_or_app; right; left; reflexivity.
    + destruct (O j Hj) as [O1 O2]; destruct (H j dgm' cs' F1 F2) as [P1 P2]; split; intros G'.
      * rewrite O1, O2; apply P1; apply in_app_or in G'; destruct G' as [G'|[G'|[]]]; [exact G'|congruence].
      * rewrite O1, O2; apply P2; intros G''; apply G', in_or_app; left; exact G''.
  - exists st; split; [exact E|split; [exact L1|split; [exact L2|]]].
    intros i dgm cs F1 F2; destruct (H i dgm cs F1 F2) as [P1 P2]; split; intros G.
    + apply P1, in_range; lia.
    + apply P2; rewrite in_range; lia.
Qed.

Lemma sorted_of_perm dgm : Permutation (sorted_of dgm) (seq 0 (length dgm)).
Proof. destruct (argsort_ok (map key dgm)) as [P _]; rewrite map_length in P; exact P. Qed.

Lemma sorted_of_sorted dgm :
  StronglySorted (fun x y => persistence y <= persistence x)%R
    (map (fun k => nth k dgm (0, 0)%R) (sorted_of dgm)).
Proof.
  destruct (argsort_ok (map key dgm)) as [P S].
  fold (sorted_of dgm) in P, S.
  assert (F : Forall (fun k => k < length dgm) (sorted_of dgm)).
  { apply perm_seq_lt, sorted_of_perm. }
  clear P; induction (sorted_of dgm) as [|k p IH]; cbn [map] in *; [constructor|].
  apply StronglySorted_inv in S; destruct S as [S1 S2]; inversion F as [|? ? F1 F2]; subst.
  constructor; [apply IH; assumption|].
  rewrite Forall_map in *; rewrite Forall_forall in *; intros j Hj; specialize (S2 j Hj).
  specialize (F2 j Hj).
  rewrite (nth_indep _ 0%R (key (0, 0)%R)), map_nth in S2 by (rewrite map_length; exact F1).
  rewrite (nth_indep _ 0%R (key (0, 0)%R)), map_nth in S2 by (rewrite map_length; exact F2).
  unfold key, persistence in *; lra.
Qed.
End Sort.

(** ** Reindexing *)
Lemma reindex_renamed idx N c m : NoDup idx -> Forall (fun v => (0 <= v < Z.of_nat N)%Z) idx ->
  make_idx_map idx N = Ok m ->
  (forall row v, In row (c_rows c) -> In v (fst row) -> In v idx) ->
  exists c', reindex_cocycle m c = Ok c' /\ renamed idx c c'.
Proof.
  intros ND F Em H; destruct (idx_map_ok idx N ND F) as (m' & E' & Lm & Hm & _).
  rewrite Em in E'; apply Ok_inj in E'; subst m'.
  unfold reindex_cocycle.
  destruct (map_res_total (fun row row' => snd row' = snd row /\
      Forall2 (fun v v' => (0 <= v')%Z /\ nth_error idx (Z.to_nat v') = Some v) (fst row) (fst row'))
    (fun row => vs <- map_res (np_get m) (fst row) ;; Ok (vs, snd row)) (c_rows c)) as (rows & E & G).
  - intros [vs x] Hr; cbn [fst snd].
    destruct (map_res_total (fun v v' => (0 <= v')%Z /\ nth_error idx (Z.to_nat v') = Some v)
      (np_get m) vs) as (vs' & E & G).
    + intros v Hv; pose proof (H _ v Hr Hv) as Hi.
      assert (Rv : (0 <= v < Z.of_nat N)%Z) by (rewrite Forall_forall in F; apply F, Hi).
      apply In_nth_error in Hi; destruct Hi as (k & Hk).
      exists (Z.of_nat k); split.
      * rewrite (np_get_ok m v 0%Z) by lia; f_equal; apply nth_error_nth, Hm, Hk.
      * split; [lia|rewrite Nat2Z.id; exact Hk].
    + exists (vs', x); rewrite E; cbn [bind fst snd]; split; [reflexivity|split; [reflexivity|exact G]].
  - rewrite E; cbn [bind]; eexists; split; [reflexivity|]; split; [reflexivity|exact G].
Qed.

Lemma reindex_all idx N cocycles : NoDup idx -> Forall (fun v => (0 <= v < Z.of_nat N)%Z) idx ->
  (forall cs c row v, In cs cocycles -> In c cs -> In row (c_rows c) -> In v (fst row) -> In v idx) ->
  exists cocycles', reindex_cocycles cocycles idx N = Ok cocycles' /\
    Forall2 (Forall2 (renamed idx)) cocycles cocycles'.
Proof.
  intros ND F H; unfold reindex_cocycles.
  destruct (idx_map_ok idx N ND F) as (m & E & _); rewrite E; cbn [bind].
  apply map_res_total; intros cs Hcs; apply map_res_total; intros c Hc.
  apply (reindex_renamed idx N c m ND F E); intros row v; apply (H cs c row v Hcs Hc).
Qed.

(** ** Distances *)
Lemma matrix_row {A} n m (M : list (list A)) i row : matrix n m M -> nth_error M i = Some row -> length row = m.
Proof. intros [_ F] E; rewrite Forall_forall in F; apply F; eapply nth_error_In, E. Qed.

Lemma matrix_entry {A} n m (M : list (list A)) i j : matrix n m M -> i < n -> j < m -> exists x, entry M i j x.
Proof.
  intros [L F] Hi Hj; destruct (nth_error M i) as [row|] eqn:E; [|apply nth_error_None in E; lia].
  pose proof (matrix_row _ _ _ _ _ (conj L F) E) as Lr.
  destruct (nth_error row j) as [x|] eqn:Ex; [|apply nth_error_None in Ex; lia].
  exists x, row; split; assumption.
Qed.

Lemma entry_bounds {A} n m (M : list (list A)) i j x : matrix n m M -> entry M i j x -> i < n /\ j < m.
Proof.
  intros HM (row & E1 & E2); pose proof (matrix_row _ _ _ _ _ HM E1) as Lr; destruct HM as [L _].
  apply some_lt in E1; apply some_lt in E2; lia.
Qed.

Lemma entry_unique {A} (M : list (list A)) i j x y : entry M i j x -> entry M i j y -> x = y.
Proof. intros (r & E1 & E2) (r' & E1' & E2'); rewrite E1 in E1'; injection E1' as <-; congruence. Qed.

Lemma fold_min_spec l x : (fold_left Rmin l x <= x)%R /\ (forall y, In y l -> (fold_left Rmin l x <= y)%R) /\
  (fold_left Rmin l x = x \/ In (fold_left Rmin l x) l).
Proof.
  revert x; induction l as [|y l IH]; intros x; cbn [fold_left].
  - repeat split; [lra|contradiction|left; reflexivity].
  - destruct (IH (Rmin x y)) as (H1 & H2 & H3).
    pose proof (Rmin_l x y); pose proof (Rmin_r x y).
    repeat split; [lra| |].
    + intros z [<-|Hz]; [lra|apply H2, Hz].
    + destruct H3 as [H3|H3]; [|right; right; exact H3].
      rewrite H3; unfold Rmin; destruct (Rle_dec x y); [left; reflexivity|right; left; reflexivity].
Qed.

Lemma fold_max_spec l x : (x <= fold_left Rmax l x)%R /\ (forall y, In y l -> (y <= fold_left Rmax l x)%R) /\
  (fold_left Rmax l x = x \/ In (fold_left Rmax l x) l).
Proof.
  revert x; induction l as [|y l IH]; intros x; cbn [fold_left].
  - repeat split; [lra|contradiction|left; reflexivity].
  - destruct (IH (Rmax x y)) as (H1 & H2 & H3).
    pose proof (Rmax_l x y); pose proof (Rmax_r x y).
    repeat split; [lra| |].
    + intros z [<-|Hz]; [lra|apply H2, Hz].
    + destruct H3 as [H3|H3]; [|right; right; exact H3].
      rewrite H3; unfold Rmax; destruct (Rle_dec x y); [right; left; reflexivity|left; reflexivity].
Qed.

Lemma np_min_ok l : l <> [] -> exists x, np_min l = Ok x /\ In x l /\ forall y, In y l -> (x <= y)%R.
Proof.
  destruct l as [|x l]; [congruence|]; intros _; cbn [np_min].
  destruct (fold_min_spec l x) as (H1 & H2 & H3); eexists; split; [reflexivity|]; split.
  - destruct H3 as [H3|H3]; [left; symmetry; exact H3|right; exact H3].
  - intros y [<-|Hy]; [exact H1|apply H2, Hy].
Qed.
Lemma np_max_ok l : l <> [] -> exists x, np_max l = Ok x /\ In x l /\ forall y, In y l -> (y <= x)%R.
Proof.
  destruct l as [|x l]; [congruence|]; intros _; cbn [np_max].
  destruct (fold_max_spec l x) as (H1 & H2 & H3); eexists; split; [reflexivity|]; split.
  - destruct H3 as [H3|H3]; [left; symmetry; exact H3|right; exact H3].
  - intros y [<-|Hy]; [exact H1|apply H2, Hy].
Qed.

Lemma coverage_ok n m dist : matrix n m dist -> 1 <= n -> 1 <= m ->
  exists c, coverage_of dist = Ok c /\
   (exists row, In row dist /\ In c row /\ forall y, In y row -> (c <= y)%R) /\
   (forall row, In row dist -> exists y, In y row /\ (y <= c)%R).
Proof.
  intros [L F] Hn Hm; unfold coverage_of.
  destruct (map_res_total (fun row x => In x row /\ forall y, In y row -> (x <= y)%R) np_min dist) as (mins & E & G).
  - intros row Hr; apply np_min_ok; rewrite Forall_forall in F; specialize (F _ Hr).
    intros ->; cbn in F; lia.
  - rewrite E; cbn [bind]. pose proof (Forall2_length _ _ _ G) as LG.
    destruct (np_max_ok mins) as (c & Ec & Hc & Hmax); [intros ->; cbn in LG; lia|].
    exists c; split; [exact Ec|split].
    + apply In_nth_error in Hc; destruct Hc as (k & Hk).
      destruct (nth_error dist k) as [row|] eqn:Er; [|apply nth_error_None in Er; apply some_lt in Hk; lia].
      rewrite Forall2_nth_error in G; destruct G as [_ G]; destruct (G k row c Er Hk) as [G1 G2].
      exists row; split; [eapply nth_error_In, Er|split; assumption].
    + intros row Hr; apply In_nth_error in Hr; destruct Hr as (k & Hk).
      destruct (nth_error mins k) as [y|] eqn:Er; [|apply nth_error_None in Er; apply some_lt in Hk; lia].
      rewrite Forall2_nth_error in G; destruct G as [_ G]; destruct (G k row y Hk Er) as [G1 G2].
      exists y; split; [exact G1|apply Hmax; eapply nth_error_In, Er].
Qed.

Lemma land_land_ok n m dist idx : matrix n m dist -> Forall (fun v => (0 <= v < Z.of_nat m)%Z) idx ->
  exists ll, dist_land_land_of dist idx = Ok ll /\ matrix n (length idx) ll /\
   (forall k l v x, nth_error idx l = Some v -> entry ll k l x <-> (k < n /\ entry dist k (Z.to_nat v) x)).
Proof.
  intros [L F] Fi; unfold dist_land_land_of.
  destruct (map_res_total (fun row row' => length row' = length idx /\
      forall l v, nth_error idx l = Some v -> nth_error row' l = nth_error row (Z.to_nat v))
    (fun row => map_res (np_get row) idx) dist) as (ll & E & G).
  - intros row Hr; rewrite Forall_forall in F, Fi; pose proof (F _ Hr) as Lr.
    rewrite (map_res_ok _ (fun v => nth (Z.to_nat v) row 0%R)).
    + eexists; split; [reflexivity|]; split; [apply map_length|].
      intros l v Hv; rewrite nth_error_map, Hv; cbn [option_map]; symmetry; apply nth_error_nth'.
      apply nth_error_In, Fi in Hv; lia.
    + intros v Hv; apply np_get_ok; rewrite Lr; apply Fi, Hv.
  - exists ll; split; [exact E|]. pose proof (Forall2_length _ _ _ G) as LG.
    rewrite Forall2_nth_error in G; destruct G as [_ G]; split; [split; [congruence|]|].
    + apply Forall_nth_error; intros k row' Ek.
      destruct (nth_error dist k) as [row|] eqn:Er; [|apply nth_error_None in Er; apply some_lt in Ek; lia].
      apply (G k row row' Er Ek).
    + intros k l v x Hv; split.
      * intros (row' & Ek & Ex).
        destruct (nth_error dist k) as [row|] eqn:Er; [|apply nth_error_None in Er; apply some_lt in Ek; lia].
        split; [apply some_lt in Er; lia|]; exists row; split; [exact Er|].
        destruct (G k row row' Er Ek) as [_ G2]; rewrite <- (G2 l v Hv); exact Ex.
      * intros [Hk (row & Er & Ex)].
        destruct (nth_error ll k) as [row'|] eqn:Ek; [|apply nth_error_None in Ek; apply some_lt in Er; lia].
        exists row'; split; [exact Ek|]; destruct (G k row row' Er Ek) as [_ G2]; rewrite (G2 l v Hv); exact Ex.
Qed.

Lemma shape1_matrix n m X : matrix n m X -> 1 <= n -> shape1 X = m.
Proof.
  intros [L F] H; destruct X as [|row X]; [cbn in L; lia|].
  inversion F; subst; reflexivity.
Qed.

Lemma dist_ok X dm N d maxdim r : documented_input X dm N d -> ripser_contract N maxdim r ->
  exists dist, dist_land_data_of X dm r = Ok dist /\
    matrix (length (r_idx_perm r)) (n_data dm N d) dist /\
    (dm = false \/ N = d -> dist = r_dperm2all r) /\
    (dm = true -> N <> d -> forall k v, nth_error (r_idx_perm r) k = Some v ->
       nth_error dist k = nth_error X (Z.to_nat v)).
Proof.
  intros (HX & HN & Hd) (_ & _ & F & HM & _); unfold dist_land_data_of, n_data.
  pose proof (shape1_matrix N d X HX HN) as Es.
  destruct dm; cbn [negb].
  - rewrite Es. pose proof HX as [LX FX]; rewrite LX; destruct (Nat.eqb_spec N d) as [->|Hn].
    + eexists; split; [reflexivity|]; split; [exact HM|split; [reflexivity|congruence]].
    + rewrite (map_res_ok _ (fun v => nth (Z.to_nat v) X [])).
      * eexists; split; [reflexivity|]; split; [split; [apply map_length|]|split].
        -- apply Forall_map; eapply Forall_impl; [|exact F]; cbn beta; intros v Hv.
           rewrite Forall_forall in FX; apply FX, nth_In; lia.
        -- intros [E|E]; [discriminate|contradiction].
        -- intros _ _ k v Hk; rewrite nth_error_map, Hk; cbn [option_map]; symmetry; apply nth_error_nth'.
           rewrite Forall_forall in F; apply nth_error_In, F in Hk; lia.
      * intros v Hv; apply np_get_ok; rewrite Forall_forall in F; rewrite LX; apply F, Hv.
  - eexists; split; [reflexivity|]; split; [exact HM|split; [reflexivity|discriminate]].
Qed.

Lemma given_ok X dm N d : documented_input X dm N d -> given_to_ripser X dm = ripser_metric_input X dm.
Proof.
  intros (HX & HN & Hd). unfold given_to_ripser, ripser_metric_input. destruct dm; cbn [negb]; [|reflexivity].
  rewrite (shape1_matrix N d X HX HN). destruct HX as [LX FX]. rewrite LX. destruct (Nat.eqb_spec N d) as [->|_]; [|reflexivity].
  rewrite <- (map_id X) at 2. apply map_ext_in. intros row Hr. rewrite Forall_forall in FX. apply firstn_all2. rewrite (FX row Hr). lia.
Qed.
Lemma landmark_distances_ok X dm N d maxdim r dist : documented_input X dm N d -> ripser_contract N maxdim r ->
  (landmark_distances X dm N d r dist <-> dist_land_data_of X dm r = Ok dist).
Proof.
  intros Hin Hc. destruct (dist_ok X dm N d maxdim r Hin Hc) as (dist' & Ed & [L _] & H1 & H2). rewrite Ed. split.
  - intros [G1 G2]. f_equal. destruct (Bool.bool_dec dm false) as [E|E]; [rewrite G1, H1 by (left; exact E); reflexivity|]. destruct dm; [|congruence].
    destruct (Nat.eq_dec N d) as [->|Hn]; [rewrite G1, H1 by (right; reflexivity); reflexivity|].
    specialize (G2 eq_refl Hn). specialize (H2 eq_refl Hn). pose proof (Forall2_length _ _ _ G2) as LG. apply (nth_ext _ _ [] []); [congruence|].
    intros k Hk. destruct (nth_error (r_idx_perm r) k) as [v|] eqn:Ev; [|apply nth_error_None in Ev; lia]. pose proof (H2 k v Ev) as Q.
    destruct (nth_error dist k) as [row|] eqn:Er.
    2:{ apply nth_error_None in Er. lia. }
    assert (Qr : nth_error X (Z.to_nat v) = Some row).
    { clear - G2 Ev Er. revert k Ev Er. induction G2 as [|a b l l' H F IH]; intros [|k] E1 E2; try discriminate; cbn in *; [congruence|]. eapply IH; eassumption. }
    rewrite Qr in Q. rewrite (nth_error_nth _ _ [] Q), (nth_error_nth _ _ [] Er). reflexivity.
  - intros E; injection E as <-. split; [exact H1|]. intros Edm Hn. specialize (H2 Edm Hn).
    assert (B : forall k v, nth_error (r_idx_perm r) k = Some v -> exists row, nth_error dist' k = Some row /\ nth_error X (Z.to_nat v) = Some row).
    { intros k v Hk. specialize (H2 k v Hk). destruct (nth_error dist' k) as [row|] eqn:Er; [exists row; split; congruence|]. apply nth_error_None in Er. apply some_lt in Hk. lia. }
    clear - L B. revert dist' L B. induction (r_idx_perm r) as [|v l IH]; intros [|row dist'] L B; try discriminate L; constructor.
    + destruct (B 0 v eq_refl) as (row' & Q1 & Q2). cbn in Q1. congruence.
    + apply IH; [injection L; auto|]. intros k w Hk. exact (B (S k) w Hk).
Qed.

Theorem em_init_ok argsort ripser X n_landmarks dm prime maxdim N d r :
  (forall l, is_argsort Rle 0%R l (argsort l)) ->
  documented_input X dm N d -> (1 <= maxdim)%Z ->
  ripser (ripser_metric_input X dm) dm prime maxdim n_landmarks = Ok r ->
  ripser_contract N (Z.to_nat maxdim) r ->
  exists e dist, em_init argsort ripser X n_landmarks dm prime maxdim = Ok e /\
    em_prime e = prime /\ em_idx_land e = r_idx_perm r /\ em_n_landmarks e = length (r_idx_perm r) /\
    em_dist_land_data e = dist /\ dist_land_data_of X dm r = Ok dist /\
    coverage_of dist = Ok (em_coverage e) /\
    dist_land_land_of dist (r_idx_perm r) = Ok (em_dist_land_land e) /\
    em_rips_threshold e = None /\ em_r_cover e = None /\
    length (em_dgms e) = length (r_dgms r) /\ length (em_cocycles e) = length (r_dgms r) /\
    (forall i dgm cs, nth_error (r_dgms r) i = Some dgm -> nth_error (r_cocycles r) i = Some cs ->
      let p := if (1 <=? i) && (i <=? Z.to_nat maxdim) then argsort (map key dgm) else seq 0 (length dgm) in
      let q := if (1 <=? i) && (i <=? Z.to_nat maxdim) then argsort (map key dgm) else seq 0 (length cs) in
      nth_error (em_dgms e) i = Some (map (fun k => nth k dgm (0, 0)%R) p) /\
      exists cs', nth_error (em_cocycles e) i = Some cs' /\
        Forall2 (renamed (r_idx_perm r)) (map (fun k => nth k cs (mkCocycle 0 [])) q) cs').
Proof.
  intros Ha Hin Hm Er Hc.
  destruct (dist_ok X dm N d _ r Hin Hc) as (dist & Ed & HM & _).
  destruct Hc as (H1 & H2 & H3 & H4 & H5 & H6 & H7 & H8).
  assert (Hn : 1 <= length (r_idx_perm r)) by (destruct (r_idx_perm r); [congruence|cbn; lia]).
  assert (Hd : N <= n_data dm N d /\ 1 <= N).
  { destruct Hin as (_ & G1 & G2); unfold n_data; destruct dm; [specialize (G2 eq_refl)|]; lia. }
  destruct (coverage_ok _ _ dist HM Hn) as (cov & Ecov & _); [lia|].
  destruct (land_land_ok _ _ dist (r_idx_perm r) HM) as (ll & Ell & _ & _).
  { eapply Forall_impl; [|exact H3]; cbn beta; lia. }
  destruct (sort_loop_ok argsort Ha (Z.to_nat maxdim) (r_dgms r) (r_cocycles r) H5 H6 H7)
    as ([dg co] & Es & L1 & L2 & Hs); cbn [fst snd] in *.
  assert (Hco : forall cs c row v, In cs co -> In c cs -> In row (c_rows c) -> In v (fst row) -> In v (r_idx_perm r)).
  { intros cs c row v Hcs Hcc Hr Hv.
    apply In_nth_error in Hcs; destruct Hcs as (i & Hi).
    destruct (nth_error (r_dgms r) i) as [dgm|] eqn:E1; [|apply nth_error_None in E1; apply some_lt in Hi; lia].
    destruct (nth_error (r_cocycles r) i) as [cs0|] eqn:E2; [|apply nth_error_None in E2; apply some_lt in Hi; lia].
    destruct (Hs i dgm cs0 E1 E2) as [P1 P2].
    apply (H8 cs0 c row v (nth_error_In _ _ E2)); [|assumption..].
    destruct (le_dec 1 i) as [Q1|Q1]; [destruct (le_dec i (Z.to_nat maxdim)) as [Q2|Q2]|].
    - destruct P1 as [_ P1]; [lia|]; rewrite Hi in P1; injection P1 as ->.
      apply in_map_iff in Hcc; destruct Hcc as (k & <- & Hk); apply nth_In.
      rewrite (H7 i dgm cs0 Q1 E1 E2).
      pose proof (perm_seq_lt _ _ (sorted_of_perm argsort Ha dgm)) as F; rewrite Forall_forall in F; apply F, Hk.
    - destruct P2 as [_ P2]; [lia|]; rewrite Hi in P2; injection P2 as ->; exact Hcc.
    - destruct P2 as [_ P2]; [lia|]; rewrite Hi in P2; injection P2 as ->; exact Hcc. }
  destruct Hin as ((LX & _) & _ & _).
  destruct (reindex_all (r_idx_perm r) N co H2 H3 Hco) as (co' & Eco & Fco).
  unfold em_init; rewrite (proj2 (Z.leb_le 1 maxdim) Hm), Er; cbn [bind].
  rewrite Ed; cbn [bind]; rewrite Ecov; cbn [bind]; rewrite Ell; cbn [bind].
  rewrite Es; cbn [bind fst snd]; rewrite LX, Eco; cbn [bind].
  eexists; exists dist; split; [reflexivity|].
  cbn [em_prime em_dgms em_idx_land em_n_landmarks em_dist_land_data em_coverage em_dist_land_land
    em_cocycles em_rips_threshold em_r_cover].
  pose proof (Forall2_length _ _ _ Fco) as Lco.
  do 9 (split; [reflexivity || assumption|]). split; [exact L1|split; [lia|]].
  intros i dgm cs E1 E2; destruct (Hs i dgm cs E1 E2) as [P1 P2].
  rewrite Forall2_nth_error in Fco; destruct Fco as [_ Fco].
  destruct (Nat.leb_spec 1 i) as [Q1|Q1]; [destruct (Nat.leb_spec i (Z.to_nat maxdim)) as [Q2|Q2]|]; cbn [andb].
  - destruct P1 as [P1 P1']; [lia|]; split; [exact P1|].
    destruct (nth_error co' i) as [cs'|] eqn:E'; [|apply nth_error_None in E'; apply some_lt in P1'; lia].
    exists cs'; split; [reflexivity|]; exact (Fco i _ _ P1' E').
  - destruct P2 as [P2 P2']; [lia|]; split; [rewrite map_nth_seq; exact P2|].
    destruct (nth_error co' i) as [cs'|] eqn:E'; [|apply nth_error_None in E'; apply some_lt in P2'; lia].
    exists cs'; split; [reflexivity|]; rewrite map_nth_seq; exact (Fco i _ _ P2' E').
  - destruct P2 as [P2 P2']; [lia|]; split; [rewrite map_nth_seq; exact P2|].
    destruct (nth_error co' i) as [cs'|] eqn:E'; [|apply nth_error_None in E'; apply some_lt in P2'; lia].
    exists cs'; split; [reflexivity|]; rewrite map_nth_seq; exact (Fco i _ _ P2' E').
Qed.

(** ** np_get with any index *)
Lemma np_get_cases {A} (l : list A) k : let n := Z.of_nat (length l) in
  (exists x, (0 <= k < n)%Z /\ np_get l k = Ok x /\ nth_error l (Z.to_nat k) = Some x) \/
  (exists x, (- n <= k < 0)%Z /\ np_get l k = Ok x /\ nth_error l (Z.to_nat (n + k)) = Some x) \/
  ((k < - n \/ n <= k)%Z /\ np_get l k = Raise IndexError).
Proof.
  intros n; unfold np_get; fold n.
  destruct (Z.leb_spec 0 k) as [H1|H1]; [destruct (Z.ltb_spec k n) as [H2|H2]|]; cbn [andb].
  - left; unfold get; destruct (nth_error l (Z.to_nat k)) as [x|] eqn:E.
    + exists x; repeat split; lia || reflexivity.
    + apply nth_error_None in E; unfold n in *; lia.
  - right; right; split; [lia|].
    destruct (Z.leb_spec (- n) k), (Z.ltb_spec k 0); cbn [andb]; reflexivity || lia.
  - destruct (Z.leb_spec (- n) k) as [H2|H2]; cbn [andb].
    + rewrite (proj2 (Z.ltb_lt k 0)) by lia; cbn [andb]; right; left; unfold get.
      destruct (nth_error l (Z.to_nat (n + k))) as [x|] eqn:E.
      * exists x; repeat split; lia || reflexivity.
      * apply nth_error_None in E; unfold n in *; lia.
    + right; right; split; [lia|]. reflexivity.
Qed.

(** ** Covering partition *)
Lemma first_true_spec l : match first_true l with
  | Some i => nth_error l i = Some true /\ forall j, j < i -> nth_error l j = Some false
  | None => forall j, nth_error l j <> Some true end.
Proof.
  induction l as [|[] l IH]; cbn [first_true].
  - intros [|j]; discriminate.
  - split; [reflexivity|intros; lia].
  - destruct (first_true l) as [i|]; cbn [option_map].
    + destruct IH as [H1 H2]; split; [exact H1|].
      intros [|j] Hj; [reflexivity|apply H2; lia].
    + intros [|j]; [discriminate|apply IH].
Qed.

Lemma np_sum_nonneg l : Forall (fun x => 0 <= x)%R l -> (0 <= np_sum l)%R.
Proof. induction 1 as [|x l H F IH]; cbn [np_sum fold_right]; [lra|unfold np_sum in IH; lra]. Qed.
Lemma np_sum_ge l x : Forall (fun x => 0 <= x)%R l -> In x l -> (x <= np_sum l)%R.
Proof.
  induction 1 as [|y l H F IH]; [contradiction|]; pose proof (np_sum_nonneg l F) as N.
  unfold np_sum in *; cbn [fold_right]; intros [->|Hx]; [lra|specialize (IH Hx); lra].
Qed.
Lemma np_sum_zero l : Forall (fun x => x = 0)%R l -> np_sum l = 0%R.
Proof. induction 1 as [|x l H F IH]; cbn [np_sum fold_right]; [reflexivity|unfold np_sum in IH; lra]. Qed.
Lemma np_sum_div l s : np_sum (map (fun x => x / s)%R l) = (np_sum l / s)%R.
Proof. induction l as [|x l IH]; unfold np_sum in *; cbn; [lra|rewrite IH; lra]. Qed.

Lemma column_nth (dist : list (list R)) (f : R -> R) n m b i d : matrix n m dist -> entry dist i b d ->
  nth_error (column (map (map f) dist) b) i = Some (f d).
Proof.
  intros HM (row & E1 & E2); unfold column; rewrite !nth_error_map, E1; cbn [option_map].
  f_equal; apply nth_error_nth; rewrite nth_error_map, E2; reflexivity.
Qed.
Lemma bcolumn_nth (dist : list (list R)) (f : R -> bool) n m b i d : matrix n m dist -> entry dist i b d ->
  nth_error (bcolumn (map (map f) dist) b) i = Some (f d).
Proof.
  intros HM (row & E1 & E2); unfold bcolumn; rewrite !nth_error_map, E1; cbn [option_map].
  f_equal; apply nth_error_nth; rewrite nth_error_map, E2; reflexivity.
Qed.

Section Partition.
Variables (e : em) (r : R) (f : R -> R -> R) (n m : nat).
Let dist := em_dist_land_data e.
Hypothesis HM : matrix n m dist.
Hypothesis Hn : 1 <= n.
Let phi d := if Rltb d r then f d r else 0%R.
Let colphi b := column (map (map phi) dist) b.
Let s b := np_sum (colphi b).

Lemma partition_entry i b d : entry dist i b d ->
  entry (fst (get_covering_partition e r f)) i b
    (if Reqb (s b) 0 then None else Some (phi d / s b)%R).
Proof.
  intros H; pose proof (entry_bounds _ _ _ _ _ _ HM H) as [Hi Hb].
  destruct H as (row & E1 & E2).
  unfold get_covering_partition; cbn [fst]; fold dist.
  fold (s b); rewrite (shape1_matrix n m dist HM Hn).
  change (fun d0 : R => if Rltb d0 r then f d0 r else 0%R) with phi.
  set (den := map (fun b0 => np_sum (column (map (map phi) dist) b0)) (seq 0 m)).
  unfold entry; rewrite !nth_error_map, E1; cbn [option_map]; eexists; split; [reflexivity|].
  rewrite nth_error_map.
  assert (Ec : nth_error (combine (map phi row) den) b = Some (phi d, s b)).
  { assert (Lr : length row = m) by (eapply matrix_row; eassumption).
    rewrite (nth_error_nth' _ (0%R, 0%R)) by (rewrite combine_length; unfold den; rewrite !map_length, seq_length; lia).
    rewrite combine_nth by (unfold den; rewrite !map_length, seq_length; lia).
    f_equal; f_equal.
    - apply nth_error_nth; rewrite nth_error_map, E2; reflexivity.
    - apply nth_error_nth; unfold den; rewrite nth_error_map_seq; [reflexivity|exact Hb]. }
  rewrite Ec; reflexivity.
Qed.

Lemma bump_at_entry i b d : entry dist i b d -> bump_at dist r f i b = phi d.
Proof.
  intros (row & E1 & E2). unfold bump_at. rewrite E1, E2. unfold phi, Rltb. destruct (Rlt_dec d r); reflexivity.
Qed.

Lemma bump_sum b : b < m -> sumn (length dist) (fun j => bump_at dist r f j b) = s b.
Proof.
  intros Hb. unfold s, np_sum, colphi. rewrite fold_sumn. unfold column at 1. rewrite !map_length.
  apply sumn_ext. intros i Hi. destruct (matrix_entry n m dist i b HM) as (d & Hd); [destruct HM; lia|exact Hb|].
  rewrite (bump_at_entry i b d Hd). symmetry. apply nth_error_nth. apply (column_nth dist phi n m b i d HM Hd).
Qed.

Lemma partition_weight i b : i < n -> b < m ->
  entry (fst (get_covering_partition e r f)) i b (unity_weight dist r f i b).
Proof.
  intros Hi Hb. destruct (matrix_entry n m dist i b HM Hi Hb) as (d & Hd). pose proof (partition_entry i b d Hd) as P.
  unfold unity_weight. rewrite (bump_sum b Hb), (bump_at_entry i b d Hd). unfold Reqb in P. destruct (Req_EM_T (s b) 0); exact P.
Qed.

Lemma partition_shape : matrix n m (fst (get_covering_partition e r f)) /\
  length (snd (get_covering_partition e r f)) = m.
Proof.
  unfold get_covering_partition; cbn [fst snd]; fold dist.
  rewrite (shape1_matrix n m dist HM Hn); split; [|rewrite map_length, seq_length; reflexivity].
  destruct HM as [L F]; split; [rewrite !map_length; exact L|].
  apply Forall_map, Forall_map; eapply Forall_impl; [|exact F]; cbn beta; intros row Lr.
  rewrite map_length, combine_length, !map_length, seq_length; lia.
Qed.

Lemma partition_ball b : b < m -> nth_error (snd (get_covering_partition e r f)) b =
  Some (argmax_bool (bcolumn (map (map (fun d => Rltb d r)) dist) b)).
Proof.
  intros Hb; unfold get_covering_partition; cbn [snd]; fold dist.
  rewrite (shape1_matrix n m dist HM Hn); rewrite nth_error_map_seq; [reflexivity|exact Hb].
Qed.

Lemma col_in b x : b < m -> In x (colphi b) -> exists i d, entry dist i b d /\ x = phi d.
Proof.
  intros Hb Hx; apply In_nth_error in Hx; destruct Hx as (i & Hi).
  assert (Hl : i < n).
  { apply some_lt in Hi; unfold colphi, column in Hi; rewrite !map_length in Hi; destruct HM; lia. }
  destruct (matrix_entry n m dist i b HM Hl Hb) as (d & Hd); exists i, d; split; [exact Hd|].
  unfold colphi in Hi; rewrite (column_nth dist phi n m b i d HM Hd) in Hi; congruence.
Qed.
End Partition.

(** ** Selecting a class *)
Lemma np_get_iff {A} (l : list A) k x : np_get l k = Ok x <-> py_index l k x.
Proof.
  unfold np_get, py_index, get. split.
  - destruct (Z.leb_spec 0 k), (Z.ltb_spec k (Z.of_nat (length l))); cbn [andb].
    + destruct (nth_error l (Z.to_nat k)) eqn:E; intros H1; [injection H1 as ->|discriminate]. exists (Z.to_nat k). split; [left; lia|exact E].
    + destruct (Z.ltb_spec k 0); [lia|]. rewrite andb_false_r. discriminate.
    + destruct (Z.leb_spec (- Z.of_nat (length l)) k), (Z.ltb_spec k 0); try lia; cbn [andb]; [|discriminate].
      destruct (nth_error l _) eqn:E; intros H3; [injection H3 as ->|discriminate]. eexists. split; [right|exact E]. lia.
    + lia.
  - intros (p & [E|E] & N); assert (L : p < length l) by (apply nth_error_Some; congruence).
    + destruct (Z.leb_spec 0 k), (Z.ltb_spec k (Z.of_nat (length l))); try lia. cbn [andb]. replace (Z.to_nat k) with p by lia. rewrite N; reflexivity.
    + destruct (Z.leb_spec 0 k), (Z.ltb_spec k (Z.of_nat (length l))); try lia; cbn [andb].
      destruct (Z.leb_spec (- Z.of_nat (length l)) k), (Z.ltb_spec k 0); try lia; cbn [andb].
      replace (Z.to_nat (Z.of_nat (length l) + k)) with p by lia. rewrite N; reflexivity.
Qed.
Lemma np_get_nat_iff {A} (l : list A) d x : np_get l (Z.of_nat d) = Ok x <-> nth_error l d = Some x.
Proof.
  rewrite np_get_iff. split.
  - intros (p & [E|E] & N); [replace d with p by lia; exact N|]. assert (p < length l) by (apply nth_error_Some; congruence). lia.
  - intros E. exists d. split; [left; reflexivity|exact E].
Qed.
Lemma em_class_ok e d k birth death c :
  em_class e d k birth death c <-> get_representative_cocycle e k (Z.of_nat d) = Ok (birth, death, c).
Proof.
  unfold em_class, get_representative_cocycle. split.
  - intros (z & dgm & cs & -> & E1 & E2 & E3 & E4). apply np_get_nat_iff in E1, E2. apply np_get_iff in E3, E4.
    rewrite E1, E2; cbn [bind]. rewrite E3, E4. reflexivity.
  - destruct k as [z|]; [|discriminate]. intros H.
    destruct (np_get (em_dgms e) (Z.of_nat d)) as [dgm|] eqn:E1; [|discriminate]. destruct (np_get (em_cocycles e) (Z.of_nat d)) as [cs|] eqn:E2; [|discriminate].
    cbn [bind] in H. destruct (np_get dgm z) as [[b dd]|] eqn:E3; [|discriminate]. destruct (np_get cs z) as [c'|] eqn:E4; [|discriminate].
    cbn [bind fst snd] in H. injection H as <- <- <-. apply np_get_nat_iff in E1, E2. apply np_get_iff in E3, E4. exists z, dgm, cs. auto 6.
Qed.
Lemma em_class1 e k birth death c : em_class e 1 k birth death c <-> get_representative_cocycle e k 1 = Ok (birth, death, c).
Proof. exact (em_class_ok e 1 k birth death c). Qed.
Lemma em_class2 e k birth death c : em_class e 2 k birth death c <-> get_representative_cocycle e k 2 = Ok (birth, death, c).
Proof. exact (em_class_ok e 2 k birth death c). Qed.

Lemma integer_lift_ok p c c' : integer_lift p c c' <-> c' = lift_to_integer_cocycle p c.
Proof.
  unfold integer_lift, lift_to_integer_cocycle. split.
  - intros [H1 H2]. destruct c' as [d' l'], c as [d l]; cbn [c_dim c_rows] in *. subst d'. f_equal.
    induction H2 as [|row row' l l' [E1 E2] H IH]; [reflexivity|]. cbn [map]. f_equal; [|exact IH]. destruct row as [a v], row' as [a' v']; cbn [fst snd] in *. subst a'.
    f_equal. unfold lift_value. destruct (Z.ltb_spec (p - 1) (2 * v)); lia.
  - intros ->. cbn [c_dim c_rows]. split; [reflexivity|]. induction (c_rows c) as [|row l IH]; constructor; [|exact IH]. cbn [fst snd]. split; [reflexivity|].
    unfold lift_value. destruct (Z.ltb_spec (p - 1) (2 * snd row)); lia.
Qed.
