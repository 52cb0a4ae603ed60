(** ToroidalProofs.v -- lemmas about ToroidalModel. *)
From Coq Require Import Sorted Permutation.
From Verif Require Import Base BaseProofs CombinatorialModel SpecSimplex CombinatorialProofs
  DeltaModel SpecRips RipsProofs DeltaProofs DeltaFacts RealBase RealSum SpecRepair RepairModel RepairProofs
  EMModel SpecEM EMProofs CircleModel SpecCircle CircleProofs LLLModel SpecLLL LLLProofs
  CohomologyModel SpecCohomology CohomologyProofs PropDelta PropRepair PropCohomology PropEM PropCircle PropLLL
  ToroidalModel SpecToroidal.
Local Open Scope R_scope.

Lemma map_res_ok2 {A B} (f : A -> res B) (l : list A) (l' : list B) :
  Forall2 (fun x y => f x = Ok y) l l' <-> map_res f l = Ok l'.
Proof.
  revert l'; induction l as [|x l IH]; intros l'; cbn [map_res]; split; intros H.
  - inversion H; reflexivity.
  - injection H as <-; constructor.
  - inversion H as [|? y ? l2 E F]; subst. rewrite E; cbn [bind]. apply IH in F; rewrite F; reflexivity.
  - destruct (f x) as [y|] eqn:E; cbn [bind] in H; [|discriminate].
    destruct (map_res f l) as [ys|] eqn:E2; cbn [bind] in H; [|discriminate]. injection H as <-.
    constructor; [exact E|]. apply IH; reflexivity.
Qed.
Lemma map_res_ext {A B} (f g : A -> res B) l : (forall x, In x l -> f x = g x) -> map_res f l = map_res g l.
Proof.
  induction l as [|x l IH]; intros H; [reflexivity|]. cbn [map_res]; rewrite H by (left; reflexivity).
  rewrite IH by (intros; apply H; right; assumption); reflexivity.
Qed.

Lemma nth_error_ext {A} (l l' : list A) : (forall i, nth_error l i = nth_error l' i) -> l = l'.
Proof.
  revert l'; induction l as [|x l IH]; intros [|y l'] H; [reflexivity|discriminate (H 0%nat)..|].
  pose proof (H 0%nat) as H0; cbn in H0; injection H0 as ->; f_equal; apply IH; intros i; apply (H (S i)).
Qed.

Lemma f2_length {A B} {P : A -> B -> Prop} {l l'} : Forall2 P l l' -> length l = length l'.
Proof. induction 1; cbn; congruence. Qed.

Section Integrate.
Variables (dm : list (list R)) (t : R) (N Dm : nat).
Hypothesis Hsq : square dm.
Notation n := (length dm).
Hypothesis HN : (n <= N)%nat.
Hypothesis HD : (1 <= Dm)%nat.
Notation T := (combinatorial_number_system_table N Dm).
Notation closeb := (closeb Rltb dm t).

(** The strictly upper triangular matrix of the values of [h]. *)
Definition upper (h : list R) (i j : nat) : R :=
  if (i <? j)%nat && closeb i j then nth (rank [i; j]) h 0 else 0.

Lemma cocycle_to_matrix_ok h : length h = comb n 2 ->
  cocycle_to_matrix h dm t T n = Ok (mk2 n n (upper h)).
Proof.
  intros L; unfold cocycle_to_matrix, mk2; rewrite !range_0.
  apply map_res_ok; intros i Hi; apply in_seq in Hi.
  apply map_res_ok; intros j Hj; apply in_seq in Hj.
  unfold upper; destruct (Nat.ltb_spec i j) as [Hij|Hij]; cbn [andb]; [|reflexivity].
  rewrite (below_ok Rltb dm t Hsq) by lia; cbn [bind]. destruct (closeb i j); [|reflexivity].
  rewrite (d1_ok dm N Dm HN i j HD) by lia; cbn [bind].
  apply get_ok; rewrite L. apply (rank_lt_d n 1 [i; j]), simplex2; lia.
Qed.

(** Value of _sparse_integrate at data point [b]. *)
Lemma sparse_integrate_ok h (f : list R) (varphi : list (list (option R))) (ball : list nat) m :
  length h = comb n 2 -> length f = n -> matrix n m varphi -> length ball = m ->
  Forall (fun k => (k < n)%nat) ball ->
  exists row, sparse_integrate h f varphi ball dm t T = Ok row /\ length row = m /\
    forall b k, nth_error ball b = Some k ->
      (forall w, (forall s, (s < n)%nat -> entry varphi s b (Some (w s))) ->
         nth_error row b = Some (Some (np_mod (2 * PI * (nth k f 0 + sumn n (fun s => upper h k s * w s))) two_pi))) /\
      ((exists s, entry varphi s b None) -> nth_error row b = Some None).
Proof.
  intros Lh Lf HM Lb Fb; unfold sparse_integrate; rewrite Lf, cocycle_to_matrix_ok by exact Lh; cbn [bind].
  rewrite (map_res_ok _ (fun k => nth k f 0)) by
    (intros k Hk; rewrite Forall_forall in Fb; apply get_ok; rewrite Lf; apply Fb, Hk).
  cbn [bind]; rewrite map_length, Lb, range_0.
  set (val := fun b => mod_nan (option_map (fun y => 2 * PI * y)
     (add_nan (Some (nth (nth b ball 0%nat) f 0)) (dot_nan (mk1 n (upper h (nth b ball 0%nat))) (map (fun r => nth b r None) varphi))))).
  rewrite (map_res_ok _ val).
  - eexists; split; [reflexivity|]. split; [rewrite map_length, seq_length; reflexivity|].
    intros b k Ek; pose proof (some_lt _ _ _ Ek) as Hb; rewrite Lb in Hb.
    pose proof (nth_error_nth _ _ 0%nat Ek) as Ek'.
    assert (Hcol : forall s, nth_error (map (fun r => nth b r None) varphi) s = option_map (fun r => nth b r None) (nth_error varphi s)) by (intros; apply nth_error_map).
    rewrite nth_error_map_seq by exact Hb; unfold val; rewrite Ek'; split.
    + intros w Hw.
      assert (E : map (fun r => nth b r None) varphi = map Some (map w (seq 0 n))).
      { rewrite map_map; apply nth_error_ext; intros s.
        rewrite Hcol. destruct (Nat.lt_ge_cases s n) as [Hs|Hs].
        - rewrite nth_error_map_seq by exact Hs. destruct (Hw s Hs) as (r & E1 & E2).
          rewrite E1; cbn [option_map]; rewrite (nth_error_nth _ _ None E2); reflexivity.
        - rewrite (proj2 (nth_error_None varphi s)) by (destruct HM; lia).
          symmetry; apply nth_error_None; rewrite map_length, seq_length; exact Hs. }
      rewrite E, dot_nan_some by (rewrite map_length, seq_length, length_mk1; reflexivity).
      rewrite map_length, seq_length. cbn [add_nan option_map mod_nan]. do 5 f_equal.
      apply sumn_ext; intros s Hs. rewrite nth_mk1 by exact Hs.
      change (map w (seq 0 n)) with (mk1 n w); rewrite nth_mk1 by exact Hs; reflexivity.
    + intros (s & r & E1 & E2). rewrite dot_nan_none; [reflexivity|rewrite map_length, length_mk1; destruct HM; congruence|].
      apply nth_error_In with s; rewrite Hcol, E1; cbn [option_map]; rewrite (nth_error_nth _ _ None E2); reflexivity.
  - intros b Hb; apply in_seq in Hb.
    rewrite (get_ok IndexError ball b 0%nat) by lia; cbn [bind].
    assert (Hk : (nth b ball 0 < n)%nat) by (rewrite Forall_forall in Fb; apply Fb, nth_In; lia).
    rewrite (get_ok IndexError _ b 0) by (rewrite map_length; lia); cbn [bind].
    rewrite (nth_indep _ 0 ((fun k => nth k f 0) 0%nat)) by (rewrite map_length; lia).
    rewrite (map_nth (fun k => nth k f 0)).
    rewrite (get_ok IndexError _ _ []) by (rewrite length_mk2; exact Hk); cbn [bind].
    rewrite nth_mk2_row by exact Hk. rewrite length_mk1, (proj1 HM), Nat.eqb_refl. reflexivity.
Qed.

(** _integrate_harmonic_representative, given the two matrices. *)
Lemma integrate_ok lsqr (c : list Z) junk M0 W : (Z.of_nat n <= 65536)%Z -> (forall A b, length (lsqr A b) = s_cols A) ->
  make_delta0 Rltb junk dm t T = Ok M0 -> make_inner_product Rltb junk dm t T = Ok W -> length c = comb n 2 ->
  exists A b f h, integrate_harmonic_representative lsqr c M0 (snd W) = Ok (h, f) /\
    spmm (snd W) M0 = Ok A /\ matvec (K := Rring) (snd W) (map IZR c) = Ok b /\ f = lsqr A b /\
    length f = n /\ length h = comb n 2 /\
    forall i j, (i < j < n)%nat -> nth (rank [i; j]) h 0 =
      IZR (nth (rank [i; j]) c 0%Z) - (if closeb i j then nth i f 0 - nth j f 0 else 0).
Proof.
  intros Hn Hl E0 EW Lc.
  rewrite (delta0_ok Rltb junk dm t N Dm Hsq HN HD (edges_fit _ Hn)) in E0; apply Ok_inj in E0.
  rewrite (inner_product_ok Rltb junk dm t N Dm Hsq HN HD) in EW by (pose proof (comb_2 n); nia).
  apply Ok_inj in EW; subst W; cbn [snd].
  set (Wm := mkSparse (comb n 2) (comb n 2) (flat_map entw (rl Rltb dm t 1))) in *.
  unfold integrate_harmonic_representative, spmm.
  assert (ES : (s_cols Wm =? s_rows M0)%nat = true) by (subst M0; apply Nat.eqb_refl). rewrite ES; cbn [bind].
  set (A := mkSparse (s_rows Wm) (s_cols M0) _).
  destruct (matvec_ok (K := Rring) Wm (map IZR c)) as (b & Eb & Lb & _); [rewrite map_length; exact Lc|].
  rewrite Eb; cbn [bind].
  set (f := lsqr A b). assert (Lf : length f = n) by (unfold f; rewrite Hl; subst M0; reflexivity).
  destruct (delta0_apply Rltb dm t N Dm HN Rring _ f (eq_sym E0) HD Lf) as (g & Eg & Lg & Hg).
  rewrite Eg; cbn [bind]. exists A, b, f; eexists; split; [reflexivity|].
  split; [reflexivity|]. split; [reflexivity|]. split; [reflexivity|]. split; [exact Lf|].
  assert (Lh : length (vsub (map IZR c) g) = comb n 2).
  { rewrite vsub_length; rewrite map_length; change (carrier Rring) with R in *; congruence. }
  split; [exact Lh|]. intros i j Hij.
  assert (Hs : simplex n 1 [i; j]) by (apply simplex2; exact Hij).
  pose proof (rank_lt_d n 1 _ Hs) as Hr.
  rewrite nth_vsub by (rewrite map_length; change (carrier Rring) with R in *; congruence).
  change 0 with (IZR 0%Z) at 2; rewrite map_nth; f_equal.
  destruct (Hg i j (nth i f 0) (nth j f 0) Hij) as [H1 H2]; [apply nth_error_nth'; lia..|].
  destruct (closeb i j) eqn:C.
  - apply closeb_close in C; specialize (H1 C).
    rewrite (value_at_rank dm N Dm HN g 1) in H1 by (assumption || lia). apply (nth_error_nth _ _ 0) in H1; exact H1.
  - assert (NC : ~ close Rltb dm t i j) by (rewrite <- closeb_close, C; discriminate).
    specialize (H2 NC). rewrite (value_at_rank dm N Dm HN g 1) in H2 by (assumption || lia).
    apply (nth_error_nth _ _ 0) in H2; exact H2.
Qed.
End Integrate.

(** ** The full antisymmetric matrix *)
Section Full.
Variables (dm : list (list R)) (t : R).
Notation upper := (upper dm t).
Definition full (h : list R) (i j : nat) : R := if (i <? j)%nat then upper h i j else - upper h j i.

Lemma upper_diag h i j : (j <= i)%nat -> upper h i j = 0.
Proof. intros H; unfold ToroidalProofs.upper; rewrite (proj2 (Nat.ltb_ge i j)) by exact H; reflexivity. Qed.
Lemma full_anti h i j : full h i j = - full h j i.
Proof.
  unfold full. destruct (Nat.ltb_spec i j); destruct (Nat.ltb_spec j i); try lia; try lra.
  rewrite (upper_diag h j i), (upper_diag h i j) by lia; lra.
Qed.
Lemma upper_full h k m w : (forall s, (s < k)%nat -> w s = 0) ->
  sumn m (fun s => upper h k s * w s) = sumn m (fun s => full h k s * w s).
Proof.
  intros H; apply sumn_ext; intros s _; unfold full. destruct (Nat.ltb_spec k s) as [|L]; [reflexivity|].
  rewrite (upper_diag h k s) by exact L. destruct (Nat.eq_dec s k) as [->|]; [rewrite upper_diag by lia; ring|].
  rewrite (H s) by lia; ring.
Qed.
End Full.

(** Lifts over the landmarks covering a point: [P] says which landmarks cover it. *)
Lemma lifts_formula n (w : nat -> R) (P : nat -> Prop) (f : nat -> R) (eta : nat -> nat -> Z) (theta : nat -> nat -> R) j :
  sumn n w = 1 -> (forall s, (s < n)%nat -> w s <> 0 -> P s) -> P j ->
  (forall s, (s < n)%nat -> P s -> theta j s = IZR (eta j s) - (f j - f s)) ->
  f j + sumn n (fun s => theta j s * w s) = sumn n (fun s => w s * (f s + IZR (eta j s))).
Proof.
  intros Hw Hp Hj Ht.
  assert (E : f j = sumn n (fun s => w s * f j)) by (rewrite sumn_scal_r, Hw; ring).
  rewrite E at 1; rewrite <- sumn_add; apply sumn_ext; intros s Hs.
  destruct (Req_dec (w s) 0) as [->|N]; [ring|]. rewrite (Ht s Hs (Hp s Hs N)); ring.
Qed.

Lemma lifts_difference n (w : nat -> R) (P : nat -> Prop) (f : nat -> R) (eta : nat -> nat -> Z) j k :
  sumn n w = 1 -> (forall s, (s < n)%nat -> w s <> 0 -> P s) ->
  (forall s, (s < n)%nat -> P s -> (eta j k + eta k s = eta j s)%Z) ->
  sumn n (fun s => w s * (f s + IZR (eta j s))) - sumn n (fun s => w s * (f s + IZR (eta k s))) = IZR (eta j k).
Proof.
  intros Hw Hp Hc; rewrite <- sumn_sub.
  rewrite (sumn_ext n _ (fun s => w s * IZR (eta j k))); [rewrite sumn_scal_r, Hw; ring|].
  intros s Hs; destruct (Req_dec (w s) 0) as [->|N]; [ring|].
  rewrite <- (Hc s Hs (Hp s Hs N)), plus_IZR; ring.
Qed.

(** ** Python indices and the store of cocycles *)
Definition pos (len : nat) (k : Z) : option nat :=
  let n := Z.of_nat len in
  if (0 <=? k)%Z && (k <? n)%Z then Some (Z.to_nat k)
  else if (- n <=? k)%Z && (k <? 0)%Z then Some (Z.to_nat (n + k)) else None.
Lemma pos_lt len k i : pos len k = Some i -> (i < len)%nat.
Proof.
  unfold pos; match goal with |- context [if ?c then _ else _] => destruct c eqn:E end.
  - intros H; injection H as <-; rewrite andb_true_iff in E; lia.
  - match goal with |- context [if ?c then _ else _] => destruct c eqn:E2 end; [|discriminate].
    intros H; injection H as <-; rewrite andb_true_iff in E2; lia.
Qed.
Lemma np_get_pos {A} (l : list A) k : np_get l k = match pos (length l) k with Some i => get IndexError l i | None => Raise IndexError end.
Proof. unfold np_get, pos; destruct (_ && _); [reflexivity|]. destruct (_ && _); reflexivity. Qed.
Lemma np_set_pos {A} (l : list A) k x : np_set l k x = match pos (length l) k with Some i => set_at IndexError l i x | None => Raise IndexError end.
Proof. unfold np_set, pos; destruct (_ && _); [reflexivity|]. destruct (_ && _); reflexivity. Qed.
Lemma np_get_1 {A} (l : list A) x : nth_error l 1 = Some x -> np_get l 1 = Ok x.
Proof.
  intros E; pose proof (some_lt _ _ _ E); rewrite np_get_pos; unfold pos.
  rewrite (proj2 (Z.ltb_lt 1 (Z.of_nat (length l)))) by lia; cbn [Z.leb Z.compare andb].
  change (Z.to_nat 1) with 1%nat; unfold get; rewrite E; reflexivity.
Qed.

Definition class_pos (len : nat) (k : pyval) : option nat := match k with PyInt z => pos len z | PyOther => None end.

Lemma rep_ok e dgm cs k : nth_error (em_dgms e) 1 = Some dgm -> nth_error (em_cocycles e) 1 = Some cs ->
  length cs = length dgm ->
  get_representative_cocycle e k 1 =
    match k with
    | PyOther => Raise AssertionError
    | PyInt _ => match class_pos (length cs) k with
                 | Some i => Ok (nth i dgm (0, 0), nth i cs (mkCocycle 0 []))
                 | None => Raise IndexError end
    end.
Proof.
  intros E1 E2 L; unfold get_representative_cocycle; destruct k as [z|]; [|reflexivity].
  rewrite (np_get_1 _ _ E1), (np_get_1 _ _ E2); cbn [bind class_pos]. rewrite !np_get_pos, L.
  destruct (pos (length dgm) z) as [i|] eqn:E; [|reflexivity]. apply pos_lt in E.
  rewrite (get_ok _ dgm i (0, 0)) by lia; cbn [bind]. rewrite (get_ok _ cs i (mkCocycle 0 [])) by lia; cbn [bind].
  rewrite <- surjective_pairing; reflexivity.
Qed.

Definition set_cocycles (e : em) (store : list (list cocycle)) : em :=
  mkEM (em_prime e) (em_dgms e) (em_idx_land e) (em_n_landmarks e) (em_dist_land_data e)
    (em_coverage e) (em_dist_land_land e) store (em_rips_threshold e) (em_r_cover e).

(** How often position [i] is selected. *)
Definition times (len : nat) (idxs : list pyval) (i : nat) : nat :=
  length (filter (fun k => match class_pos len k with Some j => (j =? i)%nat | None => false end) idxs).

Lemma iter_lift_S p m c : Nat.iter (S m) (lift_to_integer_cocycle p) c = Nat.iter m (lift_to_integer_cocycle p) (lift_to_integer_cocycle p c).
Proof. induction m as [|m IH]; [reflexivity|]. 
  change (lift_to_integer_cocycle p (Nat.iter (S m) (lift_to_integer_cocycle p) c) =
          lift_to_integer_cocycle p (Nat.iter m (lift_to_integer_cocycle p) (lift_to_integer_cocycle p c))).
  rewrite IH; reflexivity.
Qed.

Lemma set_at_eq {A} err (l l' : list A) i x : set_at err l i x = Ok l' ->
  (i < length l)%nat /\ length l' = length l /\ nth_error l' i = Some x /\ forall j, j <> i -> nth_error l' j = nth_error l j.
Proof.
  intros E. assert (H : (i < length l)%nat).
  { unfold set_at in E; destruct (Nat.ltb_spec i (length l)); [assumption|discriminate]. }
  destruct (set_at_ok err l i x H) as (l2 & E2 & L & N1 & N2 & _).
  rewrite E in E2; apply Ok_inj in E2; subst l2; auto.
Qed.

Lemma lift_loop idxs : forall e cs, nth_error (em_cocycles e) 1 = Some cs ->
  Forall (fun k => class_pos (length cs) k <> None) idxs ->
  exists store cs', for_in idxs (lift_stored 1) e = Ok (set_cocycles e store) /\
    length store = length (em_cocycles e) /\
    (forall d, d <> 1%nat -> nth_error store d = nth_error (em_cocycles e) d) /\
    nth_error store 1 = Some cs' /\ length cs' = length cs /\
    forall i c, nth_error cs i = Some c ->
      nth_error cs' i = Some (Nat.iter (times (length cs) idxs i) (lift_to_integer_cocycle (em_prime e)) c).
Proof.
  induction idxs as [|k idxs IH]; intros e cs Ec F.
  - exists (em_cocycles e), cs; split; [destruct e; reflexivity|]. split; [reflexivity|].
    split; [reflexivity|]. split; [exact Ec|]. split; [reflexivity|]. intros i c Hc; exact Hc.
  - inversion F as [|? ? Hk F']; subst. destruct k as [z|]; [|elim Hk; reflexivity].
    cbn [class_pos] in Hk; destruct (pos (length cs) z) as [i|] eqn:Ep; [clear Hk|contradiction].
    pose proof (pos_lt _ _ _ Ep) as Hi.
    set (c := nth i cs (mkCocycle 0 [])).
    destruct (set_at_ok IndexError cs i (lift_to_integer_cocycle (em_prime e) c) Hi) as (cs1 & S1 & L1 & N1 & O1 & _).
    pose proof (some_lt _ _ _ Ec) as H1.
    destruct (set_at_ok IndexError (em_cocycles e) 1 cs1 H1) as (st1 & S2 & L2 & N2 & O2 & _).
    assert (E1 : lift_stored 1 (PyInt z) e = Ok (set_cocycles e st1)).
    { unfold lift_stored; rewrite (np_get_1 _ _ Ec); cbn [bind].
      rewrite np_get_pos, Ep, (get_ok IndexError cs i (mkCocycle 0 []) Hi); cbn [bind]; fold c.
      rewrite np_set_pos, Ep, S1; cbn [bind]. rewrite np_set_pos.
      unfold pos; rewrite (proj2 (Z.ltb_lt 1 (Z.of_nat (length (em_cocycles e))))) by lia; cbn [Z.leb Z.compare andb].
      change (Z.to_nat 1) with 1%nat; rewrite S2; reflexivity. }
    cbn [for_in]; rewrite E1; cbn [bind].
    destruct (IH (set_cocycles e st1) cs1 N2) as (store & cs' & E2 & L3 & O3 & N3 & L4 & H4); [rewrite L1; exact F'|].
    exists store, cs'; split; [exact E2|]. split; [cbn in L3; congruence|].
    split; [intros d Hd; rewrite (O3 d Hd); cbn; apply O2, Hd|]. split; [exact N3|]. split; [congruence|].
    intros i' c' Ec'. unfold times; cbn [filter class_pos]; rewrite Ep.
    destruct (Nat.eqb_spec i i') as [<-|N].
    + assert (c = c') as <- by (apply nth_error_nth; exact Ec').
      cbn [length]. change (em_prime e) with (em_prime (set_cocycles e st1)).
      rewrite iter_lift_S. rewrite (H4 i _ N1); unfold times; rewrite L1; reflexivity.
    + rewrite <- (O1 i') in Ec' by congruence. rewrite (H4 i' _ Ec'); unfold times; rewrite L1; reflexivity.
Qed.

(** ** Effects of a call, and independence of the history *)
Definition posn (len : nat) (k : pyval) : nat := match class_pos len k with Some i => i | None => 0%nat end.
Definition no_c : cocycle := mkCocycle 0 [].

Lemma reps_char e dgm cs idxs reps : nth_error (em_dgms e) 1 = Some dgm -> nth_error (em_cocycles e) 1 = Some cs ->
  length cs = length dgm ->
  map_res (fun k => get_representative_cocycle e k 1) idxs = Ok reps <->
  (Forall (fun k => class_pos (length cs) k <> None) idxs /\
   reps = map (fun k => (nth (posn (length cs) k) dgm (0, 0), nth (posn (length cs) k) cs no_c)) idxs).
Proof.
  intros E1 E2 L. revert reps; induction idxs as [|k idxs IH]; intros reps; cbn [map_res].
  - split; [intros H; injection H as <-; split; [constructor|reflexivity]|intros [_ ->]; reflexivity].
  - rewrite (rep_ok e dgm cs k E1 E2 L).
    destruct k as [z|]; [|split; [discriminate|intros [F _]; inversion F as [|? ? H _]; elim H; reflexivity]].
    destruct (class_pos (length cs) (PyInt z)) as [i|] eqn:Ep; cbn [bind];
      [|split; [discriminate|intros [F _]; inversion F as [|? ? H _]; congruence]].
    split.
    + destruct (map_res _ idxs) as [r|] eqn:Er; cbn [bind]; [|discriminate]. intros H; injection H as <-.
      destruct (proj1 (IH r) eq_refl) as [F ->]. split; [constructor; [congruence|exact F]|].
      cbn [map]. unfold posn; rewrite Ep; reflexivity.
    + intros [F ->]; inversion F; subst. rewrite (proj2 (IH _) (conj H2 eq_refl)); cbn [bind map].
      unfold posn; rewrite Ep; reflexivity.
Qed.

Definition same_data (e e' : em) : Prop :=
  em_prime e' = em_prime e /\ em_dgms e' = em_dgms e /\ em_idx_land e' = em_idx_land e /\
  em_n_landmarks e' = em_n_landmarks e /\ em_dist_land_data e' = em_dist_land_data e /\
  em_coverage e' = em_coverage e /\ em_dist_land_land e' = em_dist_land_land e.

(** [e'] is [e] with stored 1-cocycles lifted some number of times. *)
Definition aged (e e' : em) : Prop :=
  same_data e e' /\ length (em_cocycles e') = length (em_cocycles e) /\
  (forall d, d <> 1%nat -> nth_error (em_cocycles e') d = nth_error (em_cocycles e) d) /\
  forall cs, nth_error (em_cocycles e) 1 = Some cs -> exists cs', nth_error (em_cocycles e') 1 = Some cs' /\
    Forall2 (fun c c' => exists m, c' = Nat.iter m (lift_to_integer_cocycle (em_prime e)) c) cs cs'.

Lemma same_data_refl e : same_data e e.
Proof. repeat split. Qed.
Lemma same_data_trans a b c : same_data a b -> same_data b c -> same_data a c.
Proof. intros (A1 & A2 & A3 & A4 & A5 & A6 & A7) (B1 & B2 & B3 & B4 & B5 & B6 & B7); repeat split; congruence. Qed.
Lemma Forall2_refl' {A} (P : A -> A -> Prop) l : (forall x, P x x) -> Forall2 P l l.
Proof. intros H; induction l; constructor; auto. Qed.
Lemma aged_refl e : aged e e.
Proof.
  split; [apply same_data_refl|split; [reflexivity|split; [reflexivity|]]].
  intros cs E; exists cs; split; [exact E|]. apply Forall2_refl'; intros c; exists 0%nat; reflexivity.
Qed.
Lemma Forall2_trans' {A} (P Q S : A -> A -> Prop) l1 : forall l2 l3, (forall a b c, P a b -> Q b c -> S a c) ->
  Forall2 P l1 l2 -> Forall2 Q l2 l3 -> Forall2 S l1 l3.
Proof.
  induction l1; intros l2 l3 H F1 F2; inversion F1; subst; inversion F2; subst; constructor; eauto.
Qed.
Lemma iter_add {A} (f : A -> A) a b x : Nat.iter a f (Nat.iter b f x) = Nat.iter (a + b) f x.
Proof. induction a; [reflexivity|]. cbn [plus]. change (f (Nat.iter a f (Nat.iter b f x)) = f (Nat.iter (a + b) f x)); congruence. Qed.
Lemma aged_trans a b c : aged a b -> aged b c -> aged a c.
Proof.
  intros (S1 & L1 & O1 & H1) (S2 & L2 & O2 & H2).
  split; [eapply same_data_trans; eassumption|split; [congruence|split]].
  - intros d Hd; rewrite (O2 d Hd); apply O1, Hd.
  - intros cs E; destruct (H1 cs E) as (cs1 & E1 & F1); destruct (H2 cs1 E1) as (cs2 & E2 & F2).
    exists cs2; split; [exact E2|]. eapply Forall2_trans'; [|exact F1|exact F2].
    intros x y z (m & ->) (m' & ->). destruct S1 as (-> & _). exists (m' + m)%nat; apply iter_add.
Qed.

Lemma radius_effect e perc b d sr : aged e (fst (get_cover_radius e perc b d sr)) /\
  em_cocycles (fst (get_cover_radius e perc b d sr)) = em_cocycles e.
Proof.
  unfold get_cover_radius; destruct (Rltb d _); cbn [fst]; [split; [apply aged_refl|reflexivity]|].
  split; [|reflexivity]. split; [repeat split|split; [reflexivity|split; [reflexivity|]]].
  cbn; intros cs E; exists cs; split; [exact E|]. apply Forall2_refl'; intros c; exists 0%nat; reflexivity.
Qed.

Lemma lift_aged e idxs dgm cs : nth_error (em_dgms e) 1 = Some dgm -> nth_error (em_cocycles e) 1 = Some cs ->
  Forall (fun k => class_pos (length cs) k <> None) idxs ->
  exists store cs', for_in idxs (lift_stored 1) e = Ok (set_cocycles e store) /\ aged e (set_cocycles e store) /\
    nth_error store 1 = Some cs' /\ length cs' = length cs /\
    forall i c, nth_error cs i = Some c ->
      nth_error cs' i = Some (Nat.iter (times (length cs) idxs i) (lift_to_integer_cocycle (em_prime e)) c).
Proof.
  intros E1 E2 F. destruct (lift_loop idxs e cs E2 F) as (store & cs' & E & Ls & O & N & L & H).
  exists store, cs'; split; [exact E|]. split; [|auto].
  split; [repeat split|split; [exact Ls|split; [exact O|]]].
  intros cs0 E0; rewrite E2 in E0; injection E0 as <-. exists cs'; split; [exact N|].
  clear - L H. revert H L; generalize (times (length cs) idxs); intros tm H L.
  assert (G : forall (l l' : list cocycle), length l' = length l ->
     (forall i c, nth_error l i = Some c -> exists m, nth_error l' i = Some (Nat.iter m (lift_to_integer_cocycle (em_prime e)) c)) ->
     Forall2 (fun c c' => exists m, c' = Nat.iter m (lift_to_integer_cocycle (em_prime e)) c) l l').
  { induction l as [|c l IH]; intros [|c' l'] L0 H0; try discriminate L0; constructor.
    - destruct (H0 0%nat c eq_refl) as (m & Em); cbn in Em; injection Em as ->; exists m; reflexivity.
    - apply IH; [injection L0 as L0; exact L0|]. intros i c0 Hc; apply (H0 (S i) c0 Hc). }
  apply G; [exact L|]. intros i c Hc; eexists; apply H, Hc.
Qed.

(** What a successful or failing call goes through. *)
Lemma get_steps ext x perc idxs f sr check dgm cs :
  nth_error (em_dgms (t_em x)) 1 = Some dgm -> nth_error (em_cocycles (t_em x)) 1 = Some cs -> length cs = length dgm ->
  aged (t_em x) (t_em (fst (get_coordinates ext x perc idxs f sr check))) /\
  t_table (fst (get_coordinates ext x perc idxs f sr check)) = t_table x.
Proof.
  intros E1 E2 L; unfold get_coordinates.
  destruct (map_res _ idxs) as [reps|] eqn:Er; [|cbn [fst]; split; [apply aged_refl|reflexivity]].
  apply (reps_char _ dgm cs idxs reps E1 E2 L) in Er; destruct Er as [F _].
  destruct (np_max _) as [cd|]; [|cbn [fst]; split; [apply aged_refl|reflexivity]].
  destruct (np_min _) as [cb|]; [|cbn [fst]; split; [apply aged_refl|reflexivity]].
  destruct (Rleb cb cd); [cbn [fst]; split; [apply aged_refl|reflexivity]|].
  destruct (lift_aged _ idxs dgm cs E1 E2 F) as (store & cs' & -> & A & _).
  destruct (get_cover_radius _ perc cd cb sr) as [e2 radius] eqn:Eg.
  pose proof (radius_effect (set_cocycles (t_em x) store) perc cd cb sr) as [A2 _]. rewrite Eg in A2; cbn [fst] in A2.
  pose proof (aged_trans _ _ _ A A2) as A3. cbn zeta.
  destruct (bind radius _) as [[coords [[[g0 g1] cb']|]]|]; cbn [fst t_em set_em t_table]; split; try exact A3; reflexivity.
Qed.

Lemma history_aged x y dgm cs :
  nth_error (em_dgms (t_em x)) 1 = Some dgm -> nth_error (em_cocycles (t_em x)) 1 = Some cs -> length cs = length dgm ->
  history x y -> aged (t_em x) (t_em y) /\ t_table y = t_table x.
Proof.
  intros E1 E2 L H; induction H as [|y ext perc idxs f sr check H [IH1 IH2]]; [split; [apply aged_refl|reflexivity]|].
  pose proof IH1 as (S & _ & _ & A). destruct (A cs E2) as (cs' & E2' & F).
  destruct (get_steps ext y perc idxs f sr check dgm cs') as [G1 G2].
  - destruct S as (_ & -> & _); exact E1.
  - exact E2'.
  - rewrite <- (f2_length F); exact L.
  - split; [eapply aged_trans; eassumption|congruence].
Qed.

Lemma coordinates_ext ext e e' T cs r t f check : same_data e e' ->
  coordinates ext e' T cs r t f check = coordinates ext e T cs r t f check.
Proof.
  intros (A1 & A2 & A3 & A4 & A5 & A6 & A7); unfold coordinates, get_covering_partition.
  rewrite A1, A4, A5, A7; reflexivity.
Qed.

Lemma times_pos len idxs k i : In k idxs -> class_pos len k = Some i -> (1 <= times len idxs i)%nat.
Proof.
  intros Hk E; unfold times. destruct (filter _ idxs) as [|a l] eqn:Ef; [|cbn; lia].
  assert (In k []); [|contradiction]. rewrite <- Ef; apply filter_In; rewrite E, Nat.eqb_refl; auto.
Qed.

(** Results depend only on the data and on the lifts of the stored cocycles. *)
Lemma get_same ext x y perc idxs f sr check dgm cs cs' :
  nth_error (em_dgms (t_em x)) 1 = Some dgm -> nth_error (em_cocycles (t_em x)) 1 = Some cs -> length cs = length dgm ->
  same_data (t_em x) (t_em y) -> t_table y = t_table x -> nth_error (em_cocycles (t_em y)) 1 = Some cs' ->
  Forall2 (fun c c' => lift_to_integer_cocycle (em_prime (t_em x)) c = lift_to_integer_cocycle (em_prime (t_em x)) c') cs cs' ->
  let rx := get_coordinates ext x perc idxs f sr check in
  let ry := get_coordinates ext y perc idxs f sr check in
  snd ry = snd rx /\
  ((1 < length idxs)%nat -> (exists coords, snd rx = Ok coords) ->
    t_original_gram (fst ry) = t_original_gram (fst rx) /\ t_gram (fst ry) = t_gram (fst rx) /\
    t_change_basis (fst ry) = t_change_basis (fst rx)).
Proof.
  intros E1 E2 L S ET E2' F rx ry. subst rx ry; unfold get_coordinates.
  pose proof (f2_length F) as LF.
  assert (E1' : nth_error (em_dgms (t_em y)) 1 = Some dgm) by (destruct S as (_ & -> & _); exact E1).
  assert (L' : length cs' = length dgm) by congruence.
  assert (Bad : forall err, map_res (fun k => get_representative_cocycle (t_em x) k 1) idxs = Raise err ->
     map_res (fun k => get_representative_cocycle (t_em y) k 1) idxs = Raise err).
  { clear - E1 E2 L E1' E2' L' LF. induction idxs as [|k idxs IH]; intros err; cbn [map_res]; [discriminate|].
    rewrite (rep_ok _ _ _ k E1 E2 L), (rep_ok _ _ _ k E1' E2' L'). rewrite <- LF.
    destruct k as [z|]; cbn [bind]; [|auto]. destruct (class_pos _ _); cbn [bind]; [|auto].
    destruct (map_res _ idxs) as [r|err'] eqn:Er; cbn [bind]; [discriminate|].
    intros H; injection H as ->; rewrite (IH _ eq_refl); reflexivity. }
  destruct (map_res (fun k => get_representative_cocycle (t_em x) k 1) idxs) as [reps|err] eqn:Er.
  2:{ rewrite (Bad err eq_refl); cbn [fst snd]. split; [reflexivity|]. intros _ (c & H); discriminate H. }
  apply (reps_char _ dgm cs idxs reps E1 E2 L) in Er; destruct Er as [Fp ->].
  assert (Fp' : Forall (fun k => class_pos (length cs') k <> None) idxs) by (rewrite <- LF; exact Fp).
  pose proof (proj2 (reps_char (t_em y) dgm cs' idxs _ E1' E2' L') (conj Fp' eq_refl)) as Ey.
  rewrite Ey; clear Ey Bad. rewrite !map_map; cbn [fst snd]. rewrite <- LF.
  destruct (np_max _) as [cd|]; [|cbn [fst snd]; split; [reflexivity|intros _ (c & H); discriminate H]].
  destruct (np_min _) as [cb|]; [|cbn [fst snd]; split; [reflexivity|intros _ (c & H); discriminate H]].
  destruct (Rleb cb cd); [cbn [fst snd]; split; [reflexivity|intros _ (c & H); discriminate H]|].
  destruct (lift_aged _ idxs dgm cs E1 E2 Fp) as (store & c1 & -> & A1 & N1 & L1 & H1).
  destruct (lift_aged _ idxs dgm cs' E1' E2' Fp') as (store' & c1' & -> & A1' & N1' & L1' & H1').
  pose proof (radius_effect (set_cocycles (t_em x) store) perc cd cb sr) as [A2 K2].
  pose proof (radius_effect (set_cocycles (t_em y) store') perc cd cb sr) as [A2' K2'].
  assert (RS : snd (get_cover_radius (set_cocycles (t_em y) store') perc cd cb sr) =
               snd (get_cover_radius (set_cocycles (t_em x) store) perc cd cb sr)).
  { unfold get_cover_radius; destruct (Rltb cb _); reflexivity. }
  destruct (get_cover_radius (set_cocycles (t_em x) store) perc cd cb sr) as [e2 radius].
  destruct (get_cover_radius (set_cocycles (t_em y) store') perc cd cb sr) as [e2' radius'].
  cbn [fst snd] in *; subst radius'.
  assert (SD : same_data e2 e2').
  { pose proof (proj1 A1) as Q1; pose proof (proj1 A1') as Q1'; pose proof (proj1 A2) as Q2; pose proof (proj1 A2') as Q2'.
    clear - Q1 Q1' Q2 Q2' S.
    pose proof (same_data_trans _ _ _ (same_data_trans _ _ _ S Q1') Q2') as P1.
    pose proof (same_data_trans _ _ _ Q1 Q2) as P2.
    destruct P1 as (B1 & B2 & B3 & B4 & B5 & B6 & B7); destruct P2 as (C1 & C2 & C3 & C4 & C5 & C6 & C7).
    repeat split; congruence. }
  assert (EL : map_res (fun k => get_representative_cocycle e2' k 1) idxs =
               map_res (fun k => get_representative_cocycle e2 k 1) idxs).
  { assert (D2 : nth_error (em_dgms e2) 1 = Some dgm) by (destruct A2 as ((_ & -> & _) & _); exact E1).
    assert (D2' : nth_error (em_dgms e2') 1 = Some dgm) by (destruct A2' as ((_ & -> & _) & _); exact E1').
    assert (M2 : nth_error (em_cocycles e2) 1 = Some c1) by (rewrite K2; exact N1).
    assert (M2' : nth_error (em_cocycles e2') 1 = Some c1') by (rewrite K2'; exact N1').
    assert (Fp1 : Forall (fun k => class_pos (length c1) k <> None) idxs) by (rewrite L1; exact Fp).
    rewrite (proj2 (reps_char e2 dgm c1 idxs _ D2 M2 ltac:(congruence)) (conj Fp1 eq_refl)).
    apply (reps_char e2' dgm c1' idxs _ D2' M2' ltac:(congruence)).
    split; [rewrite L1', <- LF; exact Fp|]. rewrite L1, L1', <- LF.
    apply map_ext_in; intros k Hk; f_equal. rewrite Forall_forall in Fp; specialize (Fp k Hk); unfold posn.
    destruct (class_pos (length cs) k) as [i|] eqn:Ep; [|congruence].
    assert (Hi : (i < length cs)%nat) by (destruct k; cbn in Ep; [exact (pos_lt _ _ _ Ep)|discriminate]).
    destruct (nth_error cs i) as [c|] eqn:Ec; [|apply nth_error_None in Ec; lia].
    destruct (nth_error cs' i) as [c'|] eqn:Ec'; [|apply nth_error_None in Ec'; lia].
    rewrite (nth_error_nth _ _ _ (H1 i c Ec)), (nth_error_nth _ _ _ (H1' i c' Ec')).
    assert (EP : em_prime (t_em y) = em_prime (t_em x)) by (destruct S as (-> & _); reflexivity).
    rewrite EP, <- LF.
    assert (Fi : lift_to_integer_cocycle (em_prime (t_em x)) c = lift_to_integer_cocycle (em_prime (t_em x)) c').
    { clear - F Ec Ec'. revert i Ec Ec'; induction F as [|a b la lb Hab F IH]; intros [|i] H1 H2; try discriminate.
      - cbn in H1, H2; congruence.
      - exact (IH i H1 H2). }
    pose proof (times_pos _ idxs k i Hk Ep) as T1. destruct (times (length cs) idxs i) as [|m]; [lia|].
    rewrite !iter_lift_S, Fi; reflexivity. }
  cbn zeta. rewrite EL, ET; clear EL.
  destruct radius as [rt|err]; cbn [bind]; [|split; [reflexivity|intros _ (c & H); discriminate H]].
  destruct (map_res (fun k => get_representative_cocycle e2 k 1) idxs) as [lifted|err] eqn:ELf; cbn [bind]; [|split; [reflexivity|intros _ (c & H); discriminate H]].
  rewrite (coordinates_ext ext e2 e2' (t_table x) (map snd lifted) (fst rt) (snd rt) f check SD).
  destruct (coordinates _ _ _ _ _ _ _ _) as [[coords [[[g0 g1] cbas]|]]|err] eqn:EC; cbn [fst snd t_original_gram t_gram t_change_basis].
  - split; [reflexivity|]. intros _ _; repeat split.
  - split; [reflexivity|]. intros H1i _. exfalso; revert EC; unfold coordinates.
    destruct (get_covering_partition _ _ _); clear - H1i ELf.
    apply map_res_length in ELf. rewrite map_length, ELf, (proj2 (Nat.ltb_lt 1 (length idxs))) by exact H1i.
    repeat (match goal with |- bind ?a _ = _ -> _ => destruct a; cbn [bind]; [|discriminate] end). discriminate.
  - split; [reflexivity|]. intros _ (c & H); discriminate H.
Qed.
