(** RoundPPCAExact.v -- the model of ppca with rounding, without rounding: lemmas. *)
From Coq Require Import Reals List ZArith Lia Lra.
From Verif Require Import Base BaseProofs RealBase RealSum EMModel SpecEM ComplexBase PPCAModel SpecPPCA PPCAProofs SpecRound RoundPPCAModel SpecRoundPPCA RoundPPCAProofs.
Import ListNotations.
Local Open Scope R_scope.

Lemma csum_finite l : csum_nan l = option_map (fold_right cadd c0) (finite l).
Proof. induction l as [|[z|] l IH]; [reflexivity| |reflexivity]. unfold csum_nan in *. cbn [fold_right finite]. rewrite IH. destruct (finite l); reflexivity. Qed.
Lemma finite_products u v : length u = length v -> finite (map (fun p => nan2 cmul (fst p) (snd p)) (combine u v)) =
  match finite u, finite v with Some u, Some v => Some (map (fun p => cmul (fst p) (snd p)) (combine u v)) | _, _ => None end.
Proof.
  revert v. induction u as [|[x|] u IH]; intros [|[y|] v] L; try discriminate; try reflexivity; injection L as L; cbn [combine map fst snd nan2 finite].
  - rewrite (IH v L). destruct (finite u), (finite v); reflexivity.
  - destruct (finite u); reflexivity.
Qed.
Lemma dot_exact p u v : length u = length v -> dot_d exact_complex p u v = cdot_nan u v.
Proof. intros L. unfold dot_d, cdot_nan. rewrite csum_finite, finite_products by exact L. destruct (finite u), (finite v); reflexivity. Qed.
Lemma combine_maps {A B D} (f : A -> B) (g : A -> D) l : combine (map f l) (map g l) = map (fun x => (f x, g x)) l.
Proof. induction l as [|x l IH]; [reflexivity|]. cbn [map combine]. rewrite IH. reflexivity. Qed.
Lemma gram_exact d X : gram_d exact_complex d X = gram_of d X.
Proof.
  unfold gram_d, gram_of. apply mk2_ext. intros i j Hi Hj. rewrite dot_exact by (unfold conj_d, row_d; rewrite !map_length; reflexivity).
  unfold cdot_nan, conj_d, row_d. rewrite map_map, combine_maps, map_map. reflexivity.
Qed.
Lemma eigen_exact eigh d X : eigenvectors_d exact_complex eigh d X = eigenvectors eigh d X.
Proof. unfold eigenvectors_d, eigenvectors. rewrite gram_exact. reflexivity. Qed.
Lemma map_numbered {A B} (f : nat -> A -> B) (g : A -> B) l : (forall b x, In x l -> f b x = g x) -> forall a, map (fun bx => f (fst bx) (snd bx)) (combine (seq a (length l)) l) = map g l.
Proof. induction l as [|x l IH]; intros H a; [reflexivity|]. cbn [length seq combine map fst snd]. rewrite (H a x) by (left; reflexivity). f_equal. apply IH. intros b y Hy. apply H. right; exact Hy. Qed.
Lemma rotate_exact N U b x : Forall (fun u => length u = length x) U -> rotate_d exact_complex N U b x = rotate U x.
Proof.
  intros F. unfold rotate_d, rotate. apply (map_numbered (fun i u => dot_d exact_complex [1%nat; length U; N; i; b] (conj_d exact_complex u) x)).
  intros i u Hu. rewrite Forall_forall in F. apply dot_exact. unfold conj_d. rewrite map_length. apply F, Hu.
Qed.
Lemma norm2_finite y : norm2_nan y = option_map (fun v => total (map cabs2 v)) (finite y).
Proof. induction y as [|[z|] y IH]; [reflexivity| |reflexivity]. unfold norm2_nan in *. cbn [map fold_right finite option_map]. rewrite IH. destruct (finite y); reflexivity. Qed.
Lemma normalize_exact N b y : normalize_d exact_complex N b y = normalize y.
Proof.
  unfold normalize_d, normalize. rewrite norm2_finite. destruct (finite y) as [v|] eqn:E; [|reflexivity]. cbn [option_map]. cbn [exact_complex complex_arith a_norm a_div].
  match goal with |- (if Reqb (sqrt ?t) 0 then _ else _) = _ => replace t with (total (map cabs2 v)) by (f_equal; apply map_ext; intros [a b']; unfold cabs2; cbn [fst snd]; ring) end.
  rewrite (finite_some _ _ E). destruct (Reqb (sqrt (total (map cabs2 v))) 0); rewrite map_map; [reflexivity|]. apply map_ext. intros [a b']. unfold cscale. cbn [fst snd option_map].
  do 2 f_equal; unfold Rdiv; ring.
Qed.
Lemma columns_exact k U X d : Forall (fun u => length u = d) U -> Forall (fun x => length x = d) X ->
  reduce_columns exact_complex k U X = map (fun x => normalize (slice_to k (rotate U x))) X.
Proof.
  intros FU FX. unfold reduce_columns. apply (map_numbered (fun b x => normalize_d exact_complex (length X) b (slice_to k (rotate_d exact_complex (length X) U b x)))).
  intros b x Hx. rewrite Forall_forall in FX. rewrite rotate_exact, normalize_exact; [reflexivity|]. rewrite (FX x Hx). exact FU.
Qed.
Section Exact.
Variable eigh : eigh_fn.
Hypothesis Hs : eigh_shape eigh.
Lemma eigen_lengths d X : Forall (fun u => length u = d) (eigenvectors eigh d X) /\ length (eigenvectors eigh d X) = d.
Proof.
  unfold eigenvectors. destruct (eigh (gram_of d X)) as [U|] eqn:E.
  - destruct (Hs d (gram_of d X) U (mk2_matrix d d _) E) as [L F]. split; [apply Forall_rev, F|rewrite rev_length; exact L].
  - destruct (mk2_matrix d d (fun i j => Some (if (i =? j)%nat then c1 else c0))) as [L F]. split; [exact F|exact L].
Qed.
Lemma normalize_len y : length (normalize y) = length y.
Proof. unfold normalize. destruct (norm2_nan y) as [s|]; [destruct (Reqb _ _)|]; apply map_length. Qed.
Lemma slice_len {A B} k (l : list A) (l' : list B) : length l = length l' -> length (slice_to k l) = length (slice_to k l').
Proof. intros E. unfold slice_to. destruct (k <? 0)%Z; rewrite !firstn_length, E; reflexivity. Qed.
Lemma column_lengths k U (X : list (list (option C))) : Forall (fun x => length x = length (slice_to k U)) (map (fun x => normalize (slice_to k (rotate U x))) X).
Proof. apply Forall_map, Forall_forall. intros x _. rewrite normalize_len. apply slice_len. unfold rotate. apply map_length. Qed.
Definition fits (st : nat * list (list (option C))) : Prop := Forall (fun x => length x = fst st) (snd st).
Lemma step_exact k st : fits st -> one_step_d exact_complex eigh k st = one_step eigh k st /\ fits (one_step eigh k st).
Proof.
  intros F. unfold one_step_d, one_step. rewrite eigen_exact. destruct (eigen_lengths (fst st) (snd st)) as [FU _]. rewrite (columns_exact k _ _ (fst st) FU F). split; [reflexivity|apply column_lengths].
Qed.
Lemma halving_exact total : forall fuel k st, fits st -> halving_d exact_complex eigh fuel total k st = halving fuel eigh total k st /\
  forall st', halving fuel eigh total k st = Ok st' -> fits st'.
Proof.
  induction fuel as [|fuel IH]; intros k st F; cbn [halving_d halving]; destruct (0 <? k)%Z; try (split; [reflexivity|discriminate]); try (split; [reflexivity|intros st' E; injection E as <-; exact F]).
  destruct (step_exact (total + k) st F) as [E F']. rewrite E. apply IH, F'.
Qed.
Lemma mean_finite l : mean_nan l = match finite l with Some v => if (length v =? 0)%nat then None else Some (total v / INR (length v)) | None => None end.
Proof.
  unfold mean_nan. assert (E : fold_right (nan2 Rplus) (Some 0) l = option_map total (finite l)).
  { induction l as [|[x|] l IH]; [reflexivity| |reflexivity]. cbn [fold_right finite]. rewrite IH. destruct (finite l); reflexivity. }
  rewrite E. destruct (finite l) as [v|] eqn:Ev; [|reflexivity]. cbn [option_map]. rewrite (finite_length _ _ Ev). reflexivity.
Qed.
Lemma last_len {A} (U : list (list A)) d : Forall (fun u => length u = d) U -> length U = d -> length (last U []) = d.
Proof.
  destruct U as [|u U]; intros F L; [exact L|]. rewrite Forall_forall in F. apply F. clear. revert u. induction U as [|v U IH]; intros u; [left; reflexivity|]. right. apply IH.
Qed.
Lemma variance_exact d X : Forall (fun x => length x = d) X -> step_variance_d exact_complex (eigenvectors eigh d X) X = step_variance (eigenvectors eigh d X) X.
Proof.
  intros F. destruct (eigen_lengths d X) as [FU LU]. pose proof (last_len _ d FU LU) as LL. unfold step_variance_d, step_variance. rewrite mean_finite.
  rewrite (map_numbered (fun b x => match dot_d exact_complex [2%nat; length X; b] (last (eigenvectors eigh d X) []) x with Some z => squared_angle_d exact_complex (a_abs exact_complex z) | None => None end)
    (fun x => match cdot_nan (last (eigenvectors eigh d X) []) x with Some z => squared_angle (cabs z) | None => None end)).
  - reflexivity.
  - intros b x Hx. rewrite Forall_forall in F. rewrite dot_exact by (rewrite LL; symmetry; apply F, Hx). destruct (cdot_nan _ x) as [z|]; [|reflexivity].
    unfold squared_angle_d, squared_angle. cbn [exact_complex complex_arith a_abs a_angle]. unfold angle. destruct (Rltb 1 (cabs z)); [reflexivity|]. f_equal. ring.
Qed.
Definition fits_loop (st : loop_state) : Prop := let '(d, X, _, _) := st in Forall (fun x => length x = d) X.
Lemma turn_exact n p i st : fits_loop st -> one_by_one_turn_d exact_complex eigh n p i st = one_by_one_turn eigh n p i st /\
  forall st', one_by_one_turn eigh n p i st = Ok st' -> fits_loop st'.
Proof.
  destruct st as [[[d X] XRet] var]. intros F. cbn [fits_loop] in F. unfold one_by_one_turn_d, one_by_one_turn. rewrite eigen_exact, (variance_exact d X F).
  destruct (if (i <? length var)%nat then _ else _) as [v|]; cbn [bind]; [|split; [reflexivity|discriminate]]. destruct (eigen_lengths d X) as [FU _].
  rewrite (columns_exact (-1) _ _ d FU F). split; [reflexivity|]. intros st' E. injection E as <-. apply column_lengths.
Qed.
Lemma loop_exact n p : forall l st, fits_loop st -> for_in l (one_by_one_turn_d exact_complex eigh n p) st = for_in l (one_by_one_turn eigh n p) st.
Proof.
  induction l as [|i l IH]; intros st F; [reflexivity|]. cbn [for_in]. destruct (turn_exact n p i st F) as [E F']. rewrite E. destruct (one_by_one_turn eigh n p i st) as [st'|]; cbn [bind]; [|reflexivity].
  apply IH, F'. reflexivity.
Qed.
Lemma ppca_exact cm n p m : Forall (fun x => length x = n) cm -> ppca_d exact_complex eigh cm n p m = ppca eigh cm n p m.
Proof.
  intros F. unfold ppca_d, ppca. destruct m; [| | |reflexivity]; destruct (1 <=? n)%nat; try reflexivity; cbn [bind].
  - destruct (step_exact (p + 1) (n, cm) F) as [E _]. rewrite E. reflexivity.
  - destruct (halving_exact (p + 1) (Z.to_nat ((Z.of_nat n - (p + 1)) / 2)) ((Z.of_nat n - (p + 1)) / 2) (n, cm) F) as [E F']. rewrite E.
    destruct (halving _ _ _ _ _) as [st|]; cbn [bind]; [|reflexivity]. specialize (F' st eq_refl). destruct (p + 1 <? Z.of_nat (fst st))%Z; [|reflexivity]. rewrite (proj1 (step_exact (p + 1) st F')). reflexivity.
  - rewrite loop_exact by exact F. reflexivity.
Qed.
End Exact.

(** ** Real arrays as complex ones *)
Section Homomorphism.
Context {K K' : Type} (h : K -> K') (A : arith K) (A' : arith K').
Hypothesis h0 : h (a_zero A) = a_zero A'.
Hypothesis h1 : h (a_one A) = a_one A'.
Hypothesis hc : forall z, h (a_conj A z) = a_conj A' (h z).
Hypothesis ha : forall z, a_abs A' (h z) = a_abs A z.
Hypothesis hd : forall p u v, a_dot A' p (map h u) (map h v) = h (a_dot A p u v).
Hypothesis hn : forall p v, a_norm A' p (map h v) = a_norm A p v.
Hypothesis hq : forall z s, a_div A' (h z) s = h (a_div A z s).
Hypothesis hg : forall x, a_angle A' x = a_angle A x.
Hypothesis hm : forall l, a_mean A' l = a_mean A l.
Variable eigh : list (list (option K)) -> option (list (list (option K))).
Variable eigh' : list (list (option K')) -> option (list (list (option K'))).
Notation hr := (map (option_map h)).
Notation hX := (map hr).
Hypothesis he : forall G, eigh' (hX G) = option_map hX (eigh G).

Lemma finite_h x : finite (hr x) = option_map (map h) (finite x).
Proof. induction x as [|[z|] x IH]; [reflexivity| |reflexivity]. cbn [map finite option_map]. rewrite IH. destruct (finite x); reflexivity. Qed.
Lemma dot_h p u v : dot_d A' p (hr u) (hr v) = option_map h (dot_d A p u v).
Proof. unfold dot_d. rewrite !finite_h. destruct (finite u), (finite v); cbn [option_map]; try reflexivity. rewrite hd. reflexivity. Qed.
Lemma conj_h u : conj_d A' (hr u) = hr (conj_d A u).
Proof. unfold conj_d. rewrite !map_map. apply map_ext. intros [z|]; [cbn [option_map]; rewrite hc|]; reflexivity. Qed.
Lemma row_h X i : row_d (hX X) i = hr (row_d X i).
Proof. unfold row_d. rewrite !map_map. apply map_ext. intros x. exact (map_nth (option_map h) x None i). Qed.
Lemma mk2_h d (f : nat -> nat -> option K) : mk2 d d (fun i j => option_map h (f i j)) = hX (mk2 d d f).
Proof. unfold mk2. rewrite map_map. apply map_ext. intros i. rewrite map_map. reflexivity. Qed.
Lemma gram_h d X : gram_d A' d (hX X) = hX (gram_d A d X).
Proof. unfold gram_d. rewrite <- mk2_h. apply mk2_ext. intros i j _ _. rewrite !row_h, conj_h, dot_h, map_length. reflexivity. Qed.
Lemma eigen_h d X : eigenvectors_d A' eigh' d (hX X) = hX (eigenvectors_d A eigh d X).
Proof.
  unfold eigenvectors_d. rewrite gram_h, he. destruct (eigh (gram_d A d X)); cbn [option_map]; [symmetry; apply map_rev|]. unfold eye_d. rewrite <- mk2_h. apply mk2_ext. intros i j _ _. destruct (i =? j)%nat; cbn [option_map]; rewrite ?h0, ?h1; reflexivity.
Qed.
Lemma numbered_h {B T} (f : nat -> B -> B) (g : nat * list (option K) -> T) (g' : nat * list (option K') -> T) (X : list (list (option K))) :
  (forall b x, g' (b, hr x) = g (b, x)) -> forall a, map g' (combine (seq a (length (hX X))) (hX X)) = map g (combine (seq a (length X)) X).
Proof. intros H. induction X as [|x X IH]; intros a; [reflexivity|]. cbn [map length seq combine]. rewrite H. f_equal. apply IH. Qed.
Lemma rotate_h N U b x : rotate_d A' N (hX U) b (hr x) = hr (rotate_d A N U b x).
Proof.
  unfold rotate_d. rewrite map_map. apply (numbered_h (fun _ (n : nat) => n)). intros i u. cbn [fst snd]. rewrite conj_h, dot_h, map_length. reflexivity.
Qed.
Lemma normalize_h N b y : normalize_d A' N b (hr y) = hr (normalize_d A N b y).
Proof.
  unfold normalize_d. rewrite finite_h. destruct (finite y) as [v|]; cbn [option_map]; [|rewrite !map_map; reflexivity]. rewrite hn, map_length. destruct (Reqb _ 0); rewrite !map_map; [reflexivity|].
  apply map_ext. intros z. cbn [option_map]. rewrite hq. reflexivity.
Qed.
Lemma slice_h {B D} (f : B -> D) k l : slice_to k (map f l) = map f (slice_to k l).
Proof. unfold slice_to. rewrite map_length. destruct (k <? 0)%Z; apply firstn_map. Qed.
Lemma columns_h k U X : reduce_columns A' k (hX U) (hX X) = hX (reduce_columns A k U X).
Proof.
  unfold reduce_columns. rewrite map_map. apply (numbered_h (fun _ (n : nat) => n)). intros b x. cbn [fst snd]. rewrite map_length, rotate_h, slice_h, normalize_h. reflexivity.
Qed.
Definition hst (st : nat * list (list (option K))) : nat * list (list (option K')) := (fst st, hX (snd st)).
Lemma step_h k st : one_step_d A' eigh' k (hst st) = hst (one_step_d A eigh k st).
Proof. unfold one_step_d, hst. cbn [fst snd]. rewrite eigen_h, columns_h, slice_h, map_length. reflexivity. Qed.
Definition hres {B D} (f : B -> D) (r : res B) : res D := match r with Ok x => Ok (f x) | Raise e => Raise e end.
Lemma halving_h total : forall fuel k st, halving_d A' eigh' fuel total k (hst st) = hres hst (halving_d A eigh fuel total k st).
Proof. induction fuel as [|fuel IH]; intros k st; cbn [halving_d]; destruct (0 <? k)%Z; try reflexivity. rewrite step_h. apply IH. Qed.
Lemma variance_h U X : step_variance_d A' (hX U) (hX X) = step_variance_d A U X.
Proof.
  unfold step_variance_d. rewrite (numbered_h (fun _ (n : nat) => n) (fun bx => match dot_d A [2%nat; length X; fst bx] (last U []) (snd bx) with Some z => squared_angle_d A (a_abs A z) | None => None end)).
  - destruct (finite _) as [l|]; [|reflexivity]. rewrite hm. reflexivity.
  - intros b x. cbn [fst snd]. assert (L : last (hX U) [] = hr (last U [])).
    { clear. induction U as [|u [|v U] IH]; [reflexivity|reflexivity|]. change (last (hX (u :: v :: U)) []) with (last (hX (v :: U)) []). rewrite IH. reflexivity. }
    rewrite L, dot_h, map_length. destruct (dot_d A _ _ x) as [z|]; [|reflexivity]. cbn [option_map]. unfold squared_angle_d. rewrite ha, hg. reflexivity.
Qed.
Definition hloop (st : loop_state_d (K := K)) : loop_state_d := let '(d, X, XRet, var) := st in (d, hX X, option_map hX XRet, var).
Lemma turn_h n p i st : one_by_one_turn_d A' eigh' n p i (hloop st) = hres hloop (one_by_one_turn_d A eigh n p i st).
Proof.
  destruct st as [[[d X] XRet] var]. unfold one_by_one_turn_d, hloop. rewrite eigen_h, variance_h, columns_h, slice_h, map_length.
  destruct (if (i <? length var)%nat then _ else _) as [v|]; cbn [bind hres]; [|reflexivity]. destruct (Z.of_nat i =? n - p - 1)%Z; reflexivity.
Qed.
Lemma loop_h n p : forall l st, for_in l (one_by_one_turn_d A' eigh' n p) (hloop st) = hres hloop (for_in l (one_by_one_turn_d A eigh n p) st).
Proof.
  induction l as [|i l IH]; intros st; [reflexivity|]. cbn [for_in]. rewrite turn_h. destruct (one_by_one_turn_d A eigh n p i st); cbn [hres bind]; [apply IH|reflexivity].
Qed.
Lemma ppca_h cm n p m : ppca_d A' eigh' (hX cm) n p m = hres (fun r => (fst r, hX (snd r))) (ppca_d A eigh cm n p m).
Proof.
  unfold ppca_d. destruct m; [| | |reflexivity]; destruct (1 <=? n)%nat; try reflexivity; cbn [bind].
  - change (n, hX cm) with (hst (n, cm)). rewrite step_h. reflexivity.
  - change (n, hX cm) with (hst (n, cm)). rewrite halving_h. destruct (halving_d _ _ _ _ _ _) as [st|]; cbn [hres bind]; [|reflexivity].
    change (fst (hst st)) with (fst st). destruct (p + 1 <? Z.of_nat (fst st))%Z; [rewrite step_h|]; reflexivity.
  - change (n, hX cm, None, repeat (Some 0) (n - 1)) with (hloop (n, cm, None, repeat (Some 0) (n - 1))). rewrite loop_h.
    destruct (for_in _ _ _) as [[[[d X] [Y|]] v]|]; reflexivity.
Qed.
End Homomorphism.
Lemma real_exact eigh cm n p m : ppca_d exact_complex (eigh_of_real eigh) (as_complex cm) n p m = answer_as_complex (ppca_d exact_real eigh cm n p m).
Proof.
  unfold as_complex. rewrite (ppca_h (fun x => (x, 0)) exact_real exact_complex) with (eigh := eigh).
  - destruct (ppca_d exact_real eigh cm n p m) as [[var X]|]; reflexivity.
  - reflexivity.
  - reflexivity.
  - intros z. cbn. unfold conj. cbn [fst snd]. f_equal. ring.
  - intros z. cbn. unfold cabs, cabs2. cbn [fst snd]. replace (z * z + 0 * 0) with (Rsqr z) by (unfold Rsqr; ring). apply sqrt_Rsqr_abs.
  - intros p0 u v. cbn [exact_complex exact_real complex_arith real_arith a_dot]. revert v. induction u as [|a u IH]; intros [|b v]; try reflexivity. cbn [map combine fold_right fst snd]. rewrite IH. unfold total, cadd, cmul. cbn [map fold_right fst snd]. f_equal; ring.
  - intros p0 v. cbn [exact_complex exact_real complex_arith real_arith a_norm]. f_equal. f_equal. rewrite map_map. apply map_ext. intros x. cbn [fst snd]. ring.
  - intros z s. cbn [exact_complex exact_real complex_arith real_arith a_div fst snd]. unfold Rdiv. f_equal; ring.
  - reflexivity.
  - reflexivity.
  - intros G. unfold eigh_of_real, as_real. rewrite map_map. rewrite (map_ext _ (fun x => x)), map_id; [reflexivity|]. intros x. rewrite map_map. rewrite (map_ext _ (fun x => x)), map_id; [reflexivity|]. intros [y|]; reflexivity.
Qed.
