(** RoundPPCAProofs.v -- PPCA in double precision: lemmas. *)
From Coq Require Import Reals Lra Lia ZArith List Permutation Psatz.
From Flocq Require Import Core Relative.
From Verif Require Import Base BaseProofs RealBase RealSum EMModel SpecEM EMProofs CohomologyModel ComplexBase PPCAModel PPCAProofs ClassMapModel SpecClassMap ClassMapProofs
  SpecRound RoundBase RoundModel RoundProofs RoundCover SpecRoundGeom RoundGeomModel RoundGeomProofs RoundPPCAModel SpecRoundPPCA.
Import ListNotations.
Local Open Scope R_scope.

(** ** Signs *)
Section Signs.
Context {K : Type} (neg : K -> K) (A : arith K).
Hypothesis HA : sign_symmetric neg A.
Variable eigh : list (list (option K)) -> option (list (list (option K))).
Local Notation nrow := (map (option_map neg)).

Lemma finite_neg x : finite (nrow x) = option_map (map neg) (finite x).
Proof. induction x as [|[a|] x IH]; cbn [map finite option_map]; [reflexivity| |reflexivity]. rewrite IH. destruct (finite x); reflexivity. Qed.
Lemma finite_length (x : list (option K)) v : finite x = Some v -> length v = length x.
Proof.
  revert v. induction x as [|[a|] x IH]; intros v; cbn [finite]; [|destruct (finite x) as [w|]|]; cbn [option_map]; try discriminate; intros E; injection E as <-; [reflexivity|].
  cbn [length]. rewrite (IH w eq_refl). reflexivity.
Qed.
Lemma finite_flip s x : length x = length s -> finite (flip (option_map neg) s x) = option_map (flip neg s) (finite x).
Proof.
  revert x. induction s as [|b s IH]; intros [|a x] L; try discriminate; [reflexivity|]. injection L as L. unfold flip in *. cbn [combine map fst snd].
  destruct b, a as [a|]; cbn [option_map finite]; try reflexivity; rewrite (IH x L); destruct (finite x); reflexivity.
Qed.
Lemma row_flip s X i : row_d (flip_rows neg s X) i = flip (option_map neg) s (row_d X i).
Proof.
  unfold row_d, flip_rows, flip. revert X. induction s as [|b s IH]; intros [|x X]; cbn [combine map]; try reflexivity. cbn [fst snd]. rewrite IH. f_equal.
  destruct b; [|reflexivity]. apply (map_nth (option_map neg) x None i).
Qed.
Lemma conj_flip s x : conj_d A (flip (option_map neg) s x) = flip (option_map neg) s (conj_d A x).
Proof.
  destruct HA as (_ & _ & _ & _ & _ & HC). unfold conj_d, flip. revert x. induction s as [|b s IH]; intros [|a x]; cbn [combine map]; try reflexivity. cbn [fst snd].
  rewrite IH. f_equal. destruct b, a as [a|]; cbn [option_map]; try reflexivity. rewrite HC. reflexivity.
Qed.
Lemma flip_length {B : Type} (f : B -> B) s x : length x = length s -> length (flip f s x) = length s.
Proof. intros L. unfold flip. rewrite map_length, combine_length. lia. Qed.
Lemma flip_rows_length s X : length X = length s -> length (flip_rows neg s X) = length X.
Proof. intros L. unfold flip_rows. rewrite map_length, combine_length. lia. Qed.
Lemma gram_flip d s X : length X = length s -> gram_d A d (flip_rows neg s X) = gram_d A d X.
Proof.
  intros L. destruct HA as (HD & _). unfold gram_d. rewrite flip_rows_length by exact L. apply mk2_ext. intros i j _ _. unfold dot_d.
  assert (R : forall k, length (row_d X k) = length s) by (intros; unfold row_d; rewrite map_length; exact L).
  rewrite !row_flip, conj_flip. rewrite !finite_flip by (unfold conj_d; rewrite ?map_length; apply R).
  destruct (finite (row_d X i)) as [u|] eqn:E1; [|reflexivity]. destruct (finite (conj_d A (row_d X j))) as [v|] eqn:E2; [|reflexivity]. cbn [option_map]. f_equal.
  apply HD; [rewrite (finite_length _ _ E1)|rewrite (finite_length _ _ E2); unfold conj_d; rewrite map_length]; apply R.
Qed.
Lemma eigen_flip d s X : length X = length s -> eigenvectors_d A eigh d (flip_rows neg s X) = eigenvectors_d A eigh d X.
Proof. intros L. unfold eigenvectors_d. rewrite gram_flip by exact L. reflexivity. Qed.
Lemma dot_neg p u x : dot_d A p u (nrow x) = option_map neg (dot_d A p u x).
Proof. destruct HA as (_ & HN & _). unfold dot_d. rewrite finite_neg. destruct (finite u), (finite x); cbn [option_map]; try reflexivity. rewrite HN. reflexivity. Qed.
Lemma rotate_neg N U b x : rotate_d A N U b (nrow x) = nrow (rotate_d A N U b x).
Proof. unfold rotate_d. rewrite map_map. apply map_ext. intros iu. apply dot_neg. Qed.
Lemma normalize_neg N b y : normalize_d A N b (nrow y) = nrow (normalize_d A N b y).
Proof.
  destruct HA as (_ & _ & HN & HD & _). unfold normalize_d. rewrite finite_neg. destruct (finite y) as [v|]; cbn [option_map].
  - rewrite map_length, HN. destruct (Reqb _ 0); rewrite !map_map; [apply map_ext; reflexivity|]. apply map_ext. intros z. cbn [option_map]. rewrite HD. reflexivity.
  - rewrite !map_map. apply map_ext. reflexivity.
Qed.
Lemma slice_neg k x : slice_to k (nrow x) = nrow (slice_to k x).
Proof. unfold slice_to. rewrite map_length. destruct (k <? 0)%Z; rewrite firstn_map; reflexivity. Qed.
Lemma map_flip (h : nat -> list (option K) -> list (option K)) s : (forall b x, h b (nrow x) = nrow (h b x)) -> forall X a, length X = length s ->
  map (fun bx => h (fst bx) (snd bx)) (combine (seq a (length X)) (flip_rows neg s X)) = flip_rows neg s (map (fun bx => h (fst bx) (snd bx)) (combine (seq a (length X)) X)).
Proof.
  intros H. unfold flip_rows. induction s as [|b s IH]; intros [|x X] a L; try discriminate; [reflexivity|]. injection L as L. cbn [length seq combine map fst snd].
  rewrite (IH X (S a) L). f_equal. destruct b; [apply H|reflexivity].
Qed.
Lemma columns_flip k U s X : length X = length s -> reduce_columns A k U (flip_rows neg s X) = flip_rows neg s (reduce_columns A k U X).
Proof.
  intros L. unfold reduce_columns. rewrite flip_rows_length by exact L.
  apply (map_flip (fun b x => normalize_d A (length X) b (slice_to k (rotate_d A (length X) U b x))) s); [|exact L].
  intros b x. rewrite rotate_neg, slice_neg, normalize_neg. reflexivity.
Qed.
Lemma columns_length k U X : length (reduce_columns A k U X) = length X.
Proof. unfold reduce_columns. rewrite map_length, combine_length, seq_length. lia. Qed.
Lemma step_flip k d s X : length X = length s ->
  one_step_d A eigh k (d, flip_rows neg s X) = (fst (one_step_d A eigh k (d, X)), flip_rows neg s (snd (one_step_d A eigh k (d, X)))).
Proof. intros L. unfold one_step_d. cbn [fst snd]. rewrite eigen_flip, columns_flip by exact L. reflexivity. Qed.
Lemma halving_flip total s : forall fuel k d X, length X = length s ->
  halving_d A eigh fuel total k (d, flip_rows neg s X) =
  match halving_d A eigh fuel total k (d, X) with Ok (d', X') => Ok (d', flip_rows neg s X') | Raise err => Raise err end.
Proof.
  induction fuel as [|fuel IH]; intros k d X L; cbn [halving_d]; destruct (0 <? k)%Z; try reflexivity.
  rewrite step_flip by exact L. destruct (one_step_d A eigh (total + k) (d, X)) as [d' X'] eqn:E. cbn [fst snd]. apply IH.
  unfold one_step_d in E. cbn [fst snd] in E. injection E as _ <-. rewrite columns_length. exact L.
Qed.
Lemma halving_length_d total : forall fuel k st st', halving_d A eigh fuel total k st = Ok st' -> length (snd st') = length (snd st).
Proof.
  induction fuel as [|fuel IH]; intros k st st'; cbn [halving_d]; destruct (0 <? k)%Z; try discriminate; intros E; [injection E as <-; reflexivity| |injection E as <-; reflexivity].
  rewrite (IH _ _ _ E). unfold one_step_d. cbn [snd]. apply columns_length.
Qed.
Lemma combine_flip {T : Type} (h : nat -> list (option K) -> T) s : (forall b x, h b (nrow x) = h b x) -> forall X a, length X = length s ->
  map (fun bx => h (fst bx) (snd bx)) (combine (seq a (length X)) (flip_rows neg s X)) = map (fun bx => h (fst bx) (snd bx)) (combine (seq a (length X)) X).
Proof.
  intros H. unfold flip_rows. induction s as [|b s IH]; intros [|x X] a L; try discriminate; [reflexivity|]. injection L as L. cbn [length seq combine map fst snd].
  rewrite (IH X (S a) L). f_equal. destruct b; [apply H|reflexivity].
Qed.
Lemma variance_flip U s X : length X = length s -> step_variance_d A U (flip_rows neg s X) = step_variance_d A U X.
Proof.
  intros L. unfold step_variance_d. rewrite flip_rows_length by exact L.
  rewrite (combine_flip (fun b x => match dot_d A [2%nat; length X; b] (last U []) x with Some z => squared_angle_d A (a_abs A z) | None => None end) s); [reflexivity| |exact L].
  intros b x. rewrite dot_neg. destruct HA as (_ & _ & _ & _ & HB & _). destruct (dot_d _ _ _ _); cbn [option_map]; [rewrite HB|]; reflexivity.
Qed.
Definition flip_state (s : list bool) (st : loop_state_d (K := K)) : loop_state_d :=
  let '(d, X, XRet, var) := st in (d, flip_rows neg s X, option_map (flip_rows neg s) XRet, var).
Lemma turn_flip n p i s st : length (snd (fst (fst st))) = length s ->
  one_by_one_turn_d A eigh n p i (flip_state s st) =
  match one_by_one_turn_d A eigh n p i st with Ok st' => Ok (flip_state s st') | Raise err => Raise err end.
Proof.
  destruct st as [[[d X] XRet] var]. cbn [fst snd]. intros L. unfold flip_state, one_by_one_turn_d. rewrite eigen_flip, variance_flip, columns_flip by exact L.
  destruct (if (i <? length var)%nat then _ else _) as [var'|err]; cbn [bind]; [|reflexivity]. destruct (Z.of_nat i =? n - p - 1)%Z; reflexivity.
Qed.
Lemma turn_length_d n p i st st' : one_by_one_turn_d A eigh n p i st = Ok st' -> length (snd (fst (fst st'))) = length (snd (fst (fst st))).
Proof.
  destruct st as [[[d X] XRet] var]. unfold one_by_one_turn_d. destruct (if (i <? length var)%nat then _ else _) as [var'|err]; cbn [bind]; [|discriminate].
  intros E; injection E as <-. cbn [fst snd]. apply columns_length.
Qed.
Lemma loop_flip n p s : forall is st, length (snd (fst (fst st))) = length s ->
  for_in is (one_by_one_turn_d A eigh n p) (flip_state s st) =
  match for_in is (one_by_one_turn_d A eigh n p) st with Ok st' => Ok (flip_state s st') | Raise err => Raise err end.
Proof.
  induction is as [|i is IH]; intros st L; cbn [for_in]; [reflexivity|]. rewrite turn_flip by exact L. destruct (one_by_one_turn_d A eigh n p i st) as [st'|err] eqn:E; cbn [bind]; [|reflexivity].
  apply IH. rewrite (turn_length_d _ _ _ _ _ E). exact L.
Qed.
Lemma ppca_flip cm n p m s : length s = length cm -> ppca_d A eigh (flip_rows neg s cm) n p m = flipped_answer neg s (ppca_d A eigh cm n p m).
Proof.
  intros L. symmetry in L. unfold ppca_d, flipped_answer. destruct m; cbn [bind]; destruct (1 <=? n)%nat; cbn [bind]; try reflexivity.
  - rewrite step_flip by exact L. reflexivity.
  - rewrite halving_flip by exact L. pose proof (halving_length_d (p + 1) (Z.to_nat ((Z.of_nat n - (p + 1)) / 2)) ((Z.of_nat n - (p + 1)) / 2) (n, cm)) as HL.
    destruct (halving_d _ _ _ _ _ (n, cm)) as [[d X]|e]; cbn [bind fst snd]; [|reflexivity]. specialize (HL (d, X) eq_refl). cbn [snd] in HL.
    destruct (p + 1 <? Z.of_nat d)%Z; [|reflexivity]. rewrite step_flip by congruence. reflexivity.
  - change (n, flip_rows neg s cm, @None (list (list (option K))), repeat (Some 0) (n - 1)) with (flip_state s (n, cm, None, repeat (Some 0) (n - 1))).
    rewrite loop_flip by exact L. destruct (for_in _ _ _) as [[[[d X] XRet] var]|e]; cbn [bind]; [|reflexivity]. unfold flip_state. destruct XRet; reflexivity.
Qed.
End Signs.

(** ** Norms *)
(** [z] is [v] divided by [s], up to a relative error [b] and an absolute error [t] of each entry. *)
Definition divided (b t s : R) (v z : list R) : Prop := Forall2 (fun x y => Rabs (y - x / s) <= b * Rabs (x / s) + t) v z.
Lemma squares_nonneg v : 0 <= total (map (fun x => x * x) v).
Proof. apply total_nonneg, Forall_map, Forall_forall. intros. nra. Qed.
Lemma square_le v x : In x v -> x * x <= total (map (fun x => x * x) v).
Proof.
  unfold total. induction v as [|a v IH]; intros H; [destruct H|]. cbn [map fold_right]. destruct H as [->|H].
  - pose proof (squares_nonneg v). unfold total in *. lra.
  - specialize (IH H). nra.
Qed.
Lemma quotient_squares b t s v z : 0 <= b <= / 100 -> 0 <= t <= / 100 -> divided b t s v z -> (forall x, In x v -> Rabs (x / s) <= 2) ->
  Rabs (total (map (fun y => y * y) z) - total (map (fun x => x / s * (x / s)) v)) <= 202 / 100 * b * total (map (fun x => x / s * (x / s)) v) + 6 * INR (length v) * t.
Proof.
  intros Hb Ht D. induction D as [|x y v z H D IH]; intros B.
  - unfold total. cbn [map fold_right length INR]. rewrite Rminus_0_r, Rabs_R0. lra.
  - assert (IH' := IH (fun x Hx => B x (or_intror Hx))). pose proof (B x (or_introl eq_refl)) as Bx. clear IH B. unfold total in *. cbn [map fold_right length]. rewrite S_INR.
    set (a := x / s) in *. set (P := fold_right Rplus 0 (map (fun y => y * y) z)) in *. set (Q := fold_right Rplus 0 (map (fun x => x / s * (x / s)) v)) in *.
    replace (y * y + P - (a * a + Q)) with ((y * y - a * a) + (P - Q)) by ring. eapply Rle_trans; [apply Rabs_triang|].
    assert (E : Rabs (y * y - a * a) <= 202 / 100 * b * (a * a) + 6 * t).
    { replace (y * y - a * a) with ((y - a) * (2 * a + (y - a))) by ring. rewrite Rabs_mult. pose proof (Rabs_pos (y - a)). pose proof (Rabs_pos a).
      assert (Rabs (2 * a + (y - a)) <= 2 * Rabs a + Rabs (y - a)) by (eapply Rle_trans; [apply Rabs_triang|]; rewrite Rabs_mult, (Rabs_right 2) by lra; lra).
      assert (A2 : a * a = Rabs a * Rabs a) by (rewrite <- Rabs_mult, Rabs_right; [ring|nra]). rewrite A2. set (c := Rabs a) in *. set (q := Rabs (y - a)) in *.
      assert (q * Rabs (2 * a + (y - a)) <= (b * c + t) * (2 * c + (b * c + t))) by (apply Rmult_le_compat; lra || apply Rabs_pos).
      assert ((b * c + t) * (2 * c + (b * c + t)) = (2 + b) * b * (c * c) + t * (2 * c + 2 * b * c + t)) by ring.
      assert (2 * c + 2 * b * c + t <= 6) by nra. assert (t * (2 * c + 2 * b * c + t) <= t * 6) by (apply Rmult_le_compat_l; lra).
      assert (0 <= b * (c * c)) by (apply Rmult_le_pos; nra). assert ((2 + b) * b * (c * c) <= 202 / 100 * b * (c * c)) by nra. lra. }
    lra.
Qed.
Lemma unit_core a b t s v z : 0 <= a <= / 200 -> 0 <= b <= / 100 -> 0 <= t <= / 100 -> 0 < total (map (fun x => x * x) v) -> s <> 0 ->
  Rabs (s * s - total (map (fun x => x * x) v)) <= a * total (map (fun x => x * x) v) -> divided b t s v z ->
  Rabs (total (map (fun y => y * y) z) - 1) <= 102 / 100 * a + 205 / 100 * b + 6 * INR (length v) * t.
Proof.
  intros Ha Hb Ht HT Hs E D. set (T := total (map (fun x => x * x) v)) in *. apply Rabs_le_inv in E.
  assert (S2 : 0 < s * s) by nra.
  assert (Q : total (map (fun x => x / s * (x / s)) v) = T / (s * s)).
  { unfold T, total. clear - Hs. induction v as [|x v IH]; cbn [map fold_right]; [field; exact Hs|]. rewrite IH. field. exact Hs. }
  assert (U : Rabs (T / (s * s) - 1) <= 101 / 100 * a).
  { replace (T / (s * s) - 1) with ((T - s * s) / (s * s)) by (field; exact Hs). unfold Rdiv at 1. rewrite Rabs_mult, (Rabs_right (/ (s * s))) by (apply Rle_ge, Rlt_le, Rinv_0_lt_compat, S2).
    apply Rmult_le_reg_r with (s * s); [exact S2|]. rewrite Rmult_assoc, Rinv_l by lra. rewrite Rmult_1_r.
    assert (Rabs (T - s * s) <= a * T) by (apply Rabs_le; lra). assert (a * T <= 101 / 100 * a * (s * s)); [|lra]. nra. }
  apply Rabs_le_inv in U.
  pose proof (quotient_squares b t s v z Hb Ht D) as R1. rewrite Q in R1. assert (B : forall x, In x v -> Rabs (x / s) <= 2).
  { intros x Hx. pose proof (square_le v x Hx) as L. fold T in L. assert (x / s * (x / s) <= 2).
    { replace (x / s * (x / s)) with (x * x / (s * s)) by (field; exact Hs). apply Rle_trans with (T / (s * s)); [|lra]. apply Rmult_le_compat_r; [apply Rlt_le, Rinv_0_lt_compat, S2|exact L]. }
    apply Rabs_le. nra. }
  specialize (R1 B). apply Rabs_le_inv in R1. apply Rabs_le. clearbody T. assert (b * (T / (s * s)) <= b * (101 / 100)) by (apply Rmult_le_compat_l; lra). lra.
Qed.

(** Real columns. *)
Lemma norm_squared q : double q -> 0 <= q -> exists e, Rabs e <= 201 / 100 * u53 /\ dbl (sqrt q) * dbl (sqrt q) = q * (1 + e).
Proof.
  intros D H. destruct (sqrt_rounded q D H) as (e & He & ->). apply Rabs_le_inv in He. exists (2 * e + e * e). split.
  - apply Rabs_le. rewrite u53_val in *. nra.
  - transitivity ((sqrt q * sqrt q) * (1 + (2 * e + e * e))); [ring|]. rewrite sqrt_sqrt by exact H. reflexivity.
Qed.
Definition tiny_bound : R := bpow radix2 (-900).
Lemma small_products (k : nat) T : tiny_bound <= T -> INR k <= bpow radix2 41 -> 10 * INR k * bpow radix2 (-1075) <= / 100 * u53 * T.
Proof.
  intros HT Hk. assert (E : bpow radix2 (-1075) = bpow radix2 (-175) * tiny_bound) by (unfold tiny_bound; rewrite <- bpow_plus; reflexivity). rewrite E.
  assert (H : 10 * INR k * bpow radix2 (-175) <= / 100 * u53).
  { apply Rle_trans with (10 * bpow radix2 41 * bpow radix2 (-175)); [apply Rmult_le_compat_r; [apply bpow_ge_0|lra]|].
    replace (10 * bpow radix2 41 * bpow radix2 (-175)) with (10 * bpow radix2 (-134)) by (replace (-134)%Z with (41 + -175)%Z by reflexivity; rewrite bpow_plus; ring).
    apply Rle_trans with (10 * bpow radix2 (-70)); [apply Rmult_le_compat_l; [lra|apply bpow_le; lia]|]. rewrite u53_val. pow2. lra. }
  assert (0 < tiny_bound) by apply bpow_gt_0. pose proof (bpow_ge_0 radix2 (-175)). pose proof (pos_INR k).
  replace (10 * INR k * (bpow radix2 (-175) * tiny_bound)) with (10 * INR k * bpow radix2 (-175) * tiny_bound) by ring.
  apply Rle_trans with (/ 100 * u53 * tiny_bound); [apply Rmult_le_compat_r; lra|]. apply Rmult_le_compat_l; [rewrite u53_val; lra|exact HT].
Qed.
Lemma real_unit v q : Forall double v -> INR (length v) <= bpow radix2 41 -> added_up (map (fun x => dbl (x * x)) v) q ->
  tiny_bound <= total (map (fun x => x * x) v) -> let s := dbl (sqrt q) in
  s <> 0 /\ Rabs (total (map (fun y => y * y) (map (fun x => dbl (x / s)) v)) - 1) <= (INR (length v) + 4) * bpow radix2 (-51).
Proof.
  intros F Hk H HT s. set (T := total (map (fun x => x * x) v)) in *. assert (T0 : 0 < T) by (eapply Rlt_le_trans; [apply bpow_gt_0|exact HT]).
  assert (K41 : INR (length v) * u53 <= / 4096). { apply Rle_trans with (bpow radix2 41 * u53); [apply Rmult_le_compat_r; [apply bpow_ge_0|exact Hk]|]. rewrite <- bpow_plus. change (41 + -53)%Z with (-12)%Z. pow2. lra. }
  destruct (square_sum v q F K41 H) as (Dq & Q0 & Eq). fold T in Eq. pose proof (small_products (length v) T HT Hk) as SP.
  destruct (norm_squared q Dq Q0) as (e & He & Es). fold s in Es. set (k := INR (length v)) in *. assert (K0 : 0 <= k) by apply pos_INR.
  apply Rabs_le_inv in Eq, He. set (u := u53) in *. assert (U0 : 0 < u <= / 9007199254740992) by (unfold u; rewrite u53_val; lra).
  set (t := bpow radix2 (-1075)) in *. assert (Ht : 0 < t) by apply bpow_gt_0.
  assert (E1 : Rabs (s * s - T) <= (2 * u * k + 5 * u) * T).
  { rewrite Es. assert (Z1 : 2 * k * t <= / 100 * u * T) by nra. assert (Q2 : Rabs (q - T) <= (2 * u * k + 201 / 100 * u) * T) by (apply Rabs_le; lra).
    apply Rabs_le_inv in Q2. assert (Q3 : q <= 101 / 100 * T) by nra. assert (Q4 : Rabs (q * e) <= 101 / 100 * T * (201 / 100 * u)).
    { rewrite Rabs_mult, (Rabs_right q) by lra. apply Rmult_le_compat; [lra|apply Rabs_pos|lra|apply Rabs_le; lra]. }
    apply Rabs_le_inv in Q4. assert (0 <= u * T) by nra. apply Rabs_le. lra. }
  assert (S0 : s <> 0). { intros Z. rewrite Z in E1. apply Rabs_le_inv in E1. nra. }
  split; [exact S0|].
  eapply Rle_trans; [apply (unit_core (2 * u * k + 5 * u) u t s v)|].
  - nra.
  - lra.
  - split; [lra|]. apply Rle_trans with (bpow radix2 (-60)); [apply bpow_le; lia|]. pow2. lra.
  - exact T0.
  - exact S0.
  - exact E1.
  - unfold divided. clear. induction v as [|x v IH]; cbn [map]; constructor; [apply dbl_error|exact IH].
  - fold k. assert (k * t <= / 1000 * u).
    { apply Rle_trans with (bpow radix2 41 * t); [apply Rmult_le_compat_r; lra|]. unfold t. rewrite <- bpow_plus. apply Rle_trans with (bpow radix2 (-70)); [apply bpow_le; lia|]. unfold u. rewrite u53_val. pow2. lra. }
    replace (bpow radix2 (-51)) with (4 * u) by (unfold u; pow2; lra). nra.
Qed.

(** Complex columns. *)
Definition parts (v : list C) : list R := flat_map (fun z => [fst z; snd z]) v.
Lemma parts_squares v : total (map (fun x => x * x) (parts v)) = total (map cabs2 v).
Proof. unfold total. induction v as [|z v IH]; [reflexivity|]. cbn [parts flat_map map fold_right app]. fold (parts v). rewrite IH. unfold cabs2. ring. Qed.
Lemma parts_length v : length (parts v) = (2 * length v)%nat.
Proof. induction v as [|z v IH]; [reflexivity|]. cbn [parts flat_map length app]. fold (parts v). rewrite IH. lia. Qed.
Lemma parts_map (f : R -> R) v : parts (map (fun z => (f (fst z), f (snd z))) v) = map f (parts v).
Proof. induction v as [|z v IH]; [reflexivity|]. cbn [parts map flat_map app fst snd]. fold (parts v). fold (parts (map (fun z => (f (fst z), f (snd z))) v)). rewrite IH. reflexivity. Qed.
Lemma total_error {B : Type} (f g h : B -> R) l : (forall x, In x l -> Rabs (f x - g x) <= h x) -> Rabs (total (map f l) - total (map g l)) <= total (map h l).
Proof.
  unfold total. induction l as [|x l IH]; intros H; cbn [map fold_right]; [rewrite Rminus_0_r, Rabs_R0; lra|].
  match goal with |- Rabs ((?a + ?b) - (?c + ?e)) <= _ => replace ((a + b) - (c + e)) with ((a - c) + (b - e)) by ring end.
  eapply Rle_trans; [apply Rabs_triang|]. apply Rplus_le_compat; [apply H; left; reflexivity|apply IH; intros y Hy; apply H; right; exact Hy].
Qed.
Definition sq_c (z : C) : R := dbl (dbl (fst z * fst z) + dbl (snd z * snd z)).
Lemma sq_c_error z : double (sq_c z) /\ 0 <= sq_c z /\ Rabs (sq_c z - cabs2 z) <= 201 / 100 * u53 * cabs2 z + 3 * bpow radix2 (-1075).
Proof.
  destruct z as [a b]. unfold sq_c, cabs2. cbn [fst snd]. split; [apply dbl_dbl|].
  assert (A0 : 0 <= dbl (a * a)) by (apply dbl_ge_0; nra). assert (B0 : 0 <= dbl (b * b)) by (apply dbl_ge_0; nra). split; [apply dbl_ge_0; lra|].
  pose proof (dbl_error (a * a)) as EA. pose proof (dbl_error (b * b)) as EB. destruct (dbl_plus _ _ (dbl_dbl (a * a)) (dbl_dbl (b * b))) as (e & He & ->).
  rewrite (Rabs_right (a * a)) in EA by nra. rewrite (Rabs_right (b * b)) in EB by nra. apply Rabs_le_inv in EA, EB, He.
  set (x := dbl (a * a)) in *. set (y := dbl (b * b)) in *. set (t := bpow radix2 (-1075)) in *. assert (T : 0 < t) by apply bpow_gt_0. set (u := u53) in *.
  assert (U : 0 < u <= / 9007199254740992) by (unfold u; rewrite u53_val; lra). assert (0 <= a * a) by nra. assert (0 <= b * b) by nra.
  set (p := a * a) in *. set (q := b * b) in *. clearbody x y t u p q.
  assert (M' : Rabs ((x + y) * e) <= ((1 + u) * (p + q) + 2 * t) * u) by (rewrite Rabs_mult; apply Rmult_le_compat; try apply Rabs_pos; [rewrite Rabs_right by lra; lra|apply Rabs_le; lra]).
  apply Rabs_le_inv in M'. assert (u * u * (p + q) <= / 1000 * u * (p + q)) by (apply Rmult_le_compat_r; nra). assert (2 * t * u <= t) by nra. set (m := (x + y) * e) in *.
  replace ((x + y) * (1 + e)) with (x + y + m) by (unfold m; ring). clearbody m. assert (0 <= u * (p + q)) by nra. apply Rabs_le. lra.
Qed.
Lemma complex_unit v q : INR (length v) <= bpow radix2 41 -> added_up (map sq_c v) q ->
  tiny_bound <= total (map cabs2 v) -> total (map cabs2 v) <= bpow radix2 1000 -> let s := dbl (sqrt q) in
  s <> 0 /\ Rabs (total (map cabs2 (map (fun z => (dbl (fst z * dbl (1 / s)), dbl (snd z * dbl (1 / s)))) v)) - 1) <= (INR (length v) + 4) * bpow radix2 (-51).
Proof.
  intros Hk H HT HT2 s. set (T := total (map cabs2 v)) in *. assert (T0 : 0 < T) by (eapply Rlt_le_trans; [apply bpow_gt_0|exact HT]).
  set (k := INR (length v)) in *. assert (K0 : 0 <= k) by apply pos_INR.
  assert (K41 : k * u53 <= / 4096). { apply Rle_trans with (bpow radix2 41 * u53); [apply Rmult_le_compat_r; [apply bpow_ge_0|exact Hk]|]. rewrite <- bpow_plus. change (41 + -53)%Z with (-12)%Z. pow2. lra. }
  assert (F : Forall (fun x => double x /\ 0 <= x) (map sq_c v)) by (apply Forall_map, Forall_forall; intros z _; pose proof (sq_c_error z); tauto).
  pose proof (sum_of_nonneg _ _ H F) as E. rewrite map_length in E. fold k in E. specialize (E ltac:(lra)).
  assert (Dq : double q) by (apply (added_double _ _ H); eapply Forall_impl; [|exact F]; cbn; tauto). pose proof (proj1 (added_ge _ _ H F)) as Q0.
  pose proof (total_error sq_c cabs2 (fun z => 201 / 100 * u53 * cabs2 z + 3 * bpow radix2 (-1075)) v (fun z _ => proj2 (proj2 (sq_c_error z)))) as E0.
  rewrite total_map_plus, total_map_scal, total_const in E0. fold T in E0. fold k in E0. set (T' := total (map sq_c v)) in *.
  pose proof (small_products (length v) T HT Hk) as SP. fold k in SP.
  destruct (norm_squared q Dq Q0) as (e & He & Es). fold s in Es.
  set (u := u53) in *. assert (U0 : 0 < u <= / 9007199254740992) by (unfold u; rewrite u53_val; lra).
  set (t := bpow radix2 (-1075)) in *. assert (Ht : 0 < t) by apply bpow_gt_0. apply Rabs_le_inv in E, E0, He.
  assert (E1 : Rabs (s * s - T) <= (2 * u * k + 5 * u) * T).
  { rewrite Es. assert (KT : 0 <= k * T) by nra. assert (UT : 0 <= u * T) by nra. assert (P1 : T' <= 101 / 100 * T) by nra. assert (P2 : 4 / 3 * (k * u) * T' <= 4 / 3 * (k * u) * (101 / 100 * T)) by (apply Rmult_le_compat_l; nra).
    assert (P3 : 0 <= k * u * T) by nra.
    assert (Q2 : Rabs (q - T) <= (2 * u * k + 205 / 100 * u) * T) by (apply Rabs_le; lra).
    apply Rabs_le_inv in Q2. assert (Q3 : q <= 101 / 100 * T) by nra. assert (Q4 : Rabs (q * e) <= 101 / 100 * T * (201 / 100 * u)).
    { rewrite Rabs_mult, (Rabs_right q) by lra. apply Rmult_le_compat; [lra|apply Rabs_pos|lra|apply Rabs_le; lra]. }
    apply Rabs_le_inv in Q4. apply Rabs_le. lra. }
  assert (S0 : s <> 0). { intros Z. rewrite Z in E1. apply Rabs_le_inv in E1. nra. }
  split; [exact S0|].
  rewrite <- parts_squares, (parts_map (fun x => dbl (x * dbl (1 / s)))).
  eapply Rle_trans; [apply (unit_core (2 * u * k + 5 * u) (205 / 100 * u) (bpow radix2 (-500)) s (parts v))|].
  - nra.
  - nra.
  - split; [apply bpow_ge_0|]. apply Rle_trans with (bpow radix2 (-60)); [apply bpow_le; lia|]. pow2. lra.
  - rewrite parts_squares. exact T0.
  - exact S0.
  - rewrite parts_squares. exact E1.
  - assert (B : forall x, In x (parts v) -> Rabs x <= bpow radix2 500).
    { intros x Hx. pose proof (square_le _ _ Hx) as L. rewrite parts_squares in L. fold T in L. apply Rsqr_incr_0_var; [|apply bpow_ge_0]. rewrite <- Rsqr_abs. unfold Rsqr. rewrite <- bpow_plus. change (500 + 500)%Z with 1000%Z. lra. }
    assert (TT : 2 * bpow radix2 500 * t + t <= bpow radix2 (-500)).
    { apply Rle_trans with (bpow radix2 (-502) + bpow radix2 (-502)); [apply Rplus_le_compat|].
      - change 2 with (bpow radix2 1). unfold t. rewrite <- !bpow_plus. apply bpow_le. lia.
      - apply bpow_le. lia.
      - replace (-500)%Z with (2 + -502)%Z by reflexivity. rewrite bpow_plus. change (bpow radix2 2) with 4. pose proof (bpow_gt_0 radix2 (-502)). lra. }
    unfold divided. revert B. generalize (parts v). clear - S0 U0 TT Ht. intros l B. induction l as [|x l IH]; cbn [map]; constructor; [|apply IH; intros y Hy; apply B; right; exact Hy].
    specialize (B x (or_introl eq_refl)). clear IH. pose proof (dbl_error (1 / s)) as D1. pose proof (dbl_error (x * dbl (1 / s))) as D2. fold u in D1, D2. fold t in D1, D2.
    set (i := dbl (1 / s)) in *. set (z := dbl (x * i)) in *. pose proof (Rabs_pos x) as X0. pose proof (Rabs_pos (1 / s)) as Y0.
    assert (D3 : Rabs (x * i - x / s) <= Rabs x * (u * Rabs (1 / s) + t)) by (replace (x * i - x / s) with (x * (i - 1 / s)) by (field; exact S0); rewrite Rabs_mult; apply Rmult_le_compat_l; lra).
    assert (D4 : Rabs (x * i) <= Rabs (x / s) + Rabs x * (u * Rabs (1 / s) + t)) by (replace (x * i) with (x / s + (x * i - x / s)) by ring; eapply Rle_trans; [apply Rabs_triang|]; lra).
    assert (XS : Rabs (x / s) = Rabs x * Rabs (1 / s)) by (rewrite <- Rabs_mult; f_equal; field; exact S0).
    replace (z - x / s) with ((z - x * i) + (x * i - x / s)) by ring. eapply Rle_trans; [apply Rabs_triang|]. rewrite XS in *. set (a := Rabs x) in *. set (b := Rabs (1 / s)) in *. set (c := Rabs (x * i)) in *.
    assert (AB : 0 <= a * b) by nra. assert (u * c <= u * (a * b + a * (u * b + t))) by (apply Rmult_le_compat_l; lra).
    assert (AT : a * t <= bpow radix2 500 * t) by (apply Rmult_le_compat_r; lra). assert (0 <= a * t) by nra.
    assert (u * (a * (u * b + t)) <= / 1000 * u * (a * b) + a * t).
    { replace (u * (a * (u * b + t))) with (u * u * (a * b) + u * (a * t)) by ring. assert (u * u * (a * b) <= / 1000 * u * (a * b)) by (apply Rmult_le_compat_r; nra). assert (u * (a * t) <= 1 * (a * t)) by (apply Rmult_le_compat_r; lra). lra. }
    assert (0 <= u * (a * b)) by nra. lra.
  - rewrite parts_length, mult_INR. change (INR 2) with 2. fold k.
    assert (k * bpow radix2 (-500) <= / 1000 * u).
    { apply Rle_trans with (bpow radix2 41 * bpow radix2 (-500)); [apply Rmult_le_compat_r; [apply bpow_ge_0|exact Hk]|]. rewrite <- bpow_plus. apply Rle_trans with (bpow radix2 (-70)); [apply bpow_le; lia|]. unfold u. rewrite u53_val. pow2. lra. }
    replace (bpow radix2 (-51)) with (4 * u) by (unfold u; pow2; lra). nra.
Qed.

(** ** The rows returned are normalized columns *)
Section Made.
Context {K : Type} (A : arith K) (eigh : list (list (option K)) -> option (list (list (option K)))).
Definition made (z : list (option K)) : Prop :=
  exists N b y, z = normalize_d A N b y /\ forall w, In (Some w) y -> exists p u v, w = a_dot A p u v.
Lemma columns_made k U X : Forall made (reduce_columns A k U X).
Proof.
  apply Forall_map, Forall_forall. intros [b x] _. cbn [fst snd]. eexists _, _, _. split; [reflexivity|]. intros w Hw. apply slice_In in Hw.
  apply in_map_iff in Hw. destruct Hw as ([i u] & E & _). cbn [fst snd] in E. unfold dot_d in E. destruct (finite (conj_d A u)), (finite x); try discriminate. injection E as <-. eexists _, _, _. reflexivity.
Qed.
Lemma step_made k st : Forall made (snd (one_step_d A eigh k st)).
Proof. apply columns_made. Qed.
Lemma halving_made total : forall fuel k st st', halving_d A eigh fuel total k st = Ok st' -> (0 < k)%Z \/ Forall made (snd st) -> Forall made (snd st').
Proof.
  induction fuel as [|fuel IH]; intros k st st'; cbn [halving_d]; destruct (Z.ltb_spec 0 k) as [H|H]; try discriminate.
  - intros E; injection E as <-. intros [?|F]; [lia|exact F].
  - intros E _. apply (IH _ _ _ E). right. apply step_made.
  - intros E; injection E as <-. intros [?|F]; [lia|exact F].
Qed.
Lemma loop_made n p : forall m a st st', for_in (seq a m) (one_by_one_turn_d A eigh n p) st = Ok st' ->
  (0 < a)%nat \/ (p < n - 1)%Z -> ((0 < a)%nat -> Forall made (snd (fst (fst st)))) -> (forall Y, snd (fst st) = Some Y -> Forall made Y) ->
  forall Y, snd (fst st') = Some Y -> Forall made Y.
Proof.
  induction m as [|m IH]; intros a st st' E Ha HX HR; cbn [seq for_in] in E; [injection E as <-; exact HR|].
  destruct (one_by_one_turn_d A eigh n p a st) as [st1|err] eqn:E1; cbn [bind] in E; [|discriminate]. apply (IH (S a) st1 st' E); [lia| |]; clear E IH.
  - intros _. destruct st as [[[d X] XRet] var]. unfold one_by_one_turn_d in E1. destruct (if (a <? length var)%nat then _ else _); cbn [bind] in E1; [|discriminate]. injection E1 as <-. cbn [fst snd]. apply columns_made.
  - destruct st as [[[d X] XRet] var]. unfold one_by_one_turn_d in E1. destruct (if (a <? length var)%nat then _ else _); cbn [bind] in E1; [|discriminate]. injection E1 as <-. cbn [fst snd] in *.
    destruct (Z.eqb_spec (Z.of_nat a) (n - p - 1)) as [Q|Q]; [|exact HR]. intros Y EY. injection EY as <-. apply HX. lia.
Qed.
Lemma ppca_made cm n p m var X : ppca_d A eigh cm n p m = Ok (var, X) -> m = Direct \/ (p + 1 < Z.of_nat n)%Z -> Forall made X.
Proof.
  intros E Hp. unfold ppca_d in E. destruct m; cbn [bind] in E; destruct (1 <=? n)%nat; cbn [bind] in E; try discriminate.
  - injection E as _ <-. apply columns_made.
  - destruct Hp as [|Hp]; [discriminate|]. destruct (halving_d _ _ _ _ _ _) as [[d Y]|err] eqn:EH; cbn [bind] in E; [|discriminate]. injection E as _ <-. cbn [fst snd].
    destruct (Z.ltb_spec (p + 1) (Z.of_nat d)) as [L|L]; [apply step_made|]. cbn [snd].
    destruct (Z_lt_le_dec 0 ((Z.of_nat n - (p + 1)) / 2)) as [H|H]; [exact (halving_made _ _ _ _ _ EH (or_introl H))|].
    exfalso. assert (N : forall f k, (k <= 0)%Z -> halving_d A eigh f (p + 1) k (n, cm) = Ok (n, cm)).
    { intros f k Hk. destruct f; cbn [halving_d]; rewrite (proj2 (Z.ltb_ge 0 k) Hk); reflexivity. }
    rewrite N in EH by exact H. injection EH as <- _. lia.
  - destruct Hp as [|Hp]; [discriminate|]. destruct (for_in _ _ _) as [[[[d Y] XRet] v]|err] eqn:EL; cbn [bind] in E; [|discriminate]. destruct XRet as [Z|]; [|discriminate]. injection E as _ <-.
    unfold range in EL. apply (loop_made _ _ _ _ _ _ EL); cbn [fst snd]; [right; lia|lia|discriminate|reflexivity].
Qed.
End Made.
Lemma finite_some {K : Type} (y : list (option K)) v : finite y = Some v -> y = map Some v.
Proof.
  revert v. induction y as [|[a|] y IH]; intros v; cbn [finite]; [|destruct (finite y) as [w|]|]; cbn [option_map]; try discriminate; intros E; injection E as <-; [reflexivity|].
  cbn [map]. rewrite (IH w eq_refl). reflexivity.
Qed.
