(** PropRepair.v -- properties C18-C21: repair of lifted cochains. *)
From Coq Require Import Sorted String.
From Verif Require Import Base BaseProofs CombinatorialModel SpecSimplex CombinatorialProofs
  DeltaModel SpecRips RipsProofs DeltaProofs DeltaFacts PropDelta RealBase RepairModel SpecRepair RepairProofs.
Local Open Scope list_scope.

Section Statements.
Context {D : Type} (ltD : D -> D -> bool).

(** C18: whatever (accurate) answer the solver gives, the repaired vector is an integer
    cocycle with the same reduction mod p; if the solver gives up, the call raises. *)
Theorem C18_repair :
  forall (dm : list (list D)) t N Dm p c eps tol milp junk M idx,
  square dm -> length dm <= N -> 2 <= Dm -> (Z.of_nat (length dm) <= 2345)%Z -> (0 < p)%Z ->
  is_binomial (length dm) 2 (length c) ->
  (0 <= eps)%R -> (0 <= tol)%R -> (3 * eps + tol < 1)%R -> sound_milp eps tol milp ->
  let table := combinatorial_number_system_table N Dm in
  make_delta1_compact ltD junk dm t table = Ok M ->
  one_cocycle_mod ltD dm t table p c ->
  exists d, matvec (K := Zring) M c = Ok d /\
  match milp M (map (fun v => (v / p)%Z) d) with
  | Some _ => exists c', repair_with p milp M idx c = Ok c' /\ one_cocycle ltD dm t table c' /\ congruent_mod p c c'
  | None => repair_with p milp M idx c = Raise (NoIntegralLift idx)
  end.
Proof.
  intros dm t N Dm p c eps tol milp junk M idx Hsq HN HD Hn Hp Lc He Ht He2 Hs table EM Hm.
  apply is_binomial_comb in Lc.
  destruct (weight1 ltD dm t N Dm Hsq HN junk M 0 HD Hn EM) as [Hc _].
  assert (Hw : forall r, r < s_rows M -> (weight (row_entries M r) <= 3)%Z).
  { intros r; exact (proj2 (weight1 ltD dm t N Dm Hsq HN junk M r HD Hn EM)). }
  destruct (matvec_ok (K := Zring) M c (eq_trans Lc (eq_sym Hc))) as (d & Ed & _).
  assert (Fd : Forall (fun v => (p | v)%Z) d)
    by (apply (rows1_P ltD dm t N Dm Hsq HN _ junk M c d HD Hn EM Lc Ed); exact Hm).
  exists d; split; [exact Ed|]. destruct (milp M (map (fun v => (v / p)%Z) d)) as [x|] eqn:EX.
  2: { unfold repair_with; rewrite Ed; cbn [bind]. change (carrier Zring) with Z; rewrite EX; reflexivity. }
  destruct (repair_with_ok 3 p milp M idx c d eps tol Hw) as [(c' & E & Cg & z & Ez & Fz)|[_ EN]];
    try assumption; try lia; try lra; [|congruence].
  exists c'; split; [exact E|split; [|exact Cg]].
  assert (Lc' : length c' = comb (length dm) 2) by (rewrite <- Lc; symmetry; eapply Forall2_length; exact Cg).
  exact (proj1 (rows1_P ltD dm t N Dm Hsq HN _ junk M c' z HD Hn EM Lc' Ez) Fz).
Qed.

(** C18: the integer program posed is solvable exactly when an integer cocycle with the
    given reduction mod p exists; so a complete solver fails only on classes without an
    integral lift. *)
Theorem C18_feasible_iff_integral_lift :
  forall (dm : list (list D)) t N Dm p c junk M,
  square dm -> length dm <= N -> 2 <= Dm -> (Z.of_nat (length dm) <= 2345)%Z -> (0 < p)%Z ->
  is_binomial (length dm) 2 (length c) ->
  let table := combinatorial_number_system_table N Dm in
  make_delta1_compact ltD junk dm t table = Ok M ->
  one_cocycle_mod ltD dm t table p c ->
  exists d, matvec (K := Zring) M c = Ok d /\
    ((exists k : list Z, length k = length c /\ matvec (K := Zring) M k = Ok (map (fun v => (v / p)%Z) d)) <->
     (exists c', one_cocycle ltD dm t table c' /\ congruent_mod p c c')).
Proof.
  intros dm t N Dm p c junk M Hsq HN HD Hn Hp Lc table EM Hm; apply is_binomial_comb in Lc.
  destruct (weight1 ltD dm t N Dm Hsq HN junk M 0 HD Hn EM) as [Hc _].
  destruct (matvec_ok (K := Zring) M c (eq_trans Lc (eq_sym Hc))) as (d & Ed & _).
  assert (Fd : Forall (fun v => (p | v)%Z) d)
    by (apply (rows1_P ltD dm t N Dm Hsq HN _ junk M c d HD Hn EM Lc Ed); exact Hm).
  exists d; split; [exact Ed|]. split.
  - intros (k & Lk & Ek).
    destruct (proj1 (repair_zero p M c k d ltac:(lia) Ed Fd) (conj Ek Lk)) as (_ & z & Ez & Fz).
    exists (zsub p c k); split; [|apply zsub_congruent; symmetry; exact Lk].
    assert (Lc' : length (zsub p c k) = comb (length dm) 2) by (rewrite zsub_length; [exact Lc|symmetry; exact Lk]).
    exact (proj1 (rows1_P ltD dm t N Dm Hsq HN _ junk M _ z HD Hn EM Lc' Ez) Fz).
  - intros (c' & Hc' & Cg). destruct (congruent_zsub p c c' Cg) as (k & Lk & ->).
    exists k; split; [exact Lk|].
    assert (Lc' : length (zsub p c k) = comb (length dm) 2) by (rewrite zsub_length; [exact Lc|symmetry; exact Lk]).
    destruct (matvec_ok (K := Zring) M (zsub p c k) (eq_trans Lc' (eq_sym Hc))) as (z & Ez & _).
    apply (proj2 (repair_zero p M c k d ltac:(lia) Ed Fd)).
    split; [exact Lk|]. exists z; split; [exact Ez|].
    apply (rows1_P ltD dm t N Dm Hsq HN _ junk M _ z HD Hn EM Lc' Ez); exact Hc'.
Qed.

Theorem C18_failure_means_no_lift :
  forall (dm : list (list D)) t N Dm p c milp junk M idx,
  square dm -> length dm <= N -> 2 <= Dm -> (Z.of_nat (length dm) <= 2345)%Z -> (0 < p)%Z ->
  is_binomial (length dm) 2 (length c) -> complete_milp milp ->
  let table := combinatorial_number_system_table N Dm in
  make_delta1_compact ltD junk dm t table = Ok M ->
  one_cocycle_mod ltD dm t table p c ->
  repair_with p milp M idx c = Raise (NoIntegralLift idx) ->
  ~ exists c', one_cocycle ltD dm t table c' /\ congruent_mod p c c'.
Proof.
  intros dm t N Dm p c milp junk M idx Hsq HN HD Hn Hp Lc Hcm table EM Hm ER.
  destruct (C18_feasible_iff_integral_lift dm t N Dm p c junk M Hsq HN HD Hn Hp Lc EM Hm) as (d & Ed & I).
  fold table in I; rewrite <- I; intros (k & Lk & Ek).
  unfold repair_with in ER; rewrite Ed in ER; cbn [bind] in ER. change (carrier Zring) with Z in *.
  destruct (milp M _) as [x|] eqn:Ex; [destruct (_ =? _); discriminate ER|].
  apply (Hcm M _ k Ex); [|exact Ek]. rewrite Lk; exact (matvec_len M c d Ed).
Qed.

(** C20: if at most one of the selected classes needs repair, it is repaired and the
    others are kept. *)
Theorem C20_one_class_is_repaired :
  forall (dm : list (list D)) t N Dm p pre c post eps tol milp junk,
  square dm -> length dm <= N -> 2 <= Dm -> (Z.of_nat (length dm) <= 2345)%Z -> (0 < p)%Z ->
  Forall (fun x => is_binomial (length dm) 2 (length x)) (pre ++ c :: post) ->
  (0 <= eps)%R -> (0 <= tol)%R -> (3 * eps + tol < 1)%R -> sound_milp eps tol milp ->
  let table := combinatorial_number_system_table N Dm in
  one_cocycle_mod ltD dm t table p c ->
  Forall (one_cocycle ltD dm t table) (pre ++ post) ->
  (exists c', repair_all ltD junk p milp dm t table (pre ++ c :: post) = Ok (pre ++ c' :: post) /\
     one_cocycle ltD dm t table c' /\ congruent_mod p c c') \/
  repair_all ltD junk p milp dm t table (pre ++ c :: post) =
    Raise (NoIntegralLift (Z.of_nat (length pre))).
Proof.
  intros dm t N Dm p pre c post eps tol milp junk Hsq HN HD Hn Hp F He Ht He2 Hs table Hm Fc; subst table.
  apply Forall_app in F; destruct F as [F1 F2]; inversion F2 as [|? ? Lc F3]; subst.
  apply Forall_app in Fc; destruct Fc as [G1 G2].
  destruct (loop_split ltD dm t N Dm Hsq HN HD junk p milp pre c post None F1 G1) as (is & Li & E).
  unfold repair_all; rewrite E; clear E.
  destruct (cocycle_dec ltD dm t N Dm Hsq HN HD c Lc) as [Y|Y].
  - rewrite (step_keep ltD dm t N Dm Hsq HN HD junk p milp _ c None pre Lc Y); cbn [bind].
    rewrite (loop_keep ltD dm t N Dm Hsq HN HD junk p milp post is None _ Li F3 G2); cbn [bind snd].
    left; exists c; rewrite <- app_assoc; split; [reflexivity|split; [exact Y|]].
    unfold congruent_mod. clear; induction c; constructor; [exists 0%Z; lia|assumption].
  - destruct (step_first ltD dm t N Dm Hsq HN HD Hn junk p milp (Z.of_nat (length pre)) c pre Lc Y) as (M & HM & E).
    rewrite E; clear E.
    destruct (C18_repair dm t N Dm p c eps tol milp junk M (Z.of_nat (length pre))) as (d & _ & Q); try assumption; try apply HM.
    destruct (milp M (map (fun v => (v / p)%Z) d)) as [x|]; [destruct Q as (c' & E & Hc' & Cg)|rename Q into E]; rewrite E; cbn [bind].
    + rewrite (loop_keep ltD dm t N Dm Hsq HN HD junk p milp post is (Some M) _ Li F3 G2); cbn [bind snd].
      left; exists c'; rewrite <- app_assoc; split; [reflexivity|split; assumption].
    + right; reflexivity.
Qed.

(** C20: with two or more classes in need of repair the call always fails: the second
    evaluation of [delta1 or ...] raises ValueError (or an earlier repair failed). *)
Theorem C20_second_repair_raises :
  forall (dm : list (list D)) t N Dm p pre c1 mid c2 post milp junk,
  square dm -> length dm <= N -> 2 <= Dm -> (Z.of_nat (length dm) <= 2345)%Z ->
  Forall (fun x => is_binomial (length dm) 2 (length x)) (pre ++ c1 :: mid ++ c2 :: post) ->
  let table := combinatorial_number_system_table N Dm in
  ~ one_cocycle ltD dm t table c1 -> ~ one_cocycle ltD dm t table c2 ->
  exists err, repair_all ltD junk p milp dm t table (pre ++ c1 :: mid ++ c2 :: post) = Raise err /\
    (err = ValueError \/ exists i, err = NoIntegralLift i).
Proof.
  intros dm t N Dm p pre c1 mid c2 post milp junk Hsq HN HD Hn F table H1 H2.
  (* split at the first failing class *)
  assert (S0 : exists a x b y e, pre ++ c1 :: mid ++ c2 :: post = a ++ x :: b ++ y :: e /\
    Forall (one_cocycle ltD dm t table) a /\ ~ one_cocycle ltD dm t table x /\
    Forall (one_cocycle ltD dm t table) b /\ ~ one_cocycle ltD dm t table y).
  { assert (Dec : forall z, is_binomial (length dm) 2 (length z) ->
      one_cocycle ltD dm t table z \/ ~ one_cocycle ltD dm t table z)
      by (intros z; apply (cocycle_dec ltD dm t N Dm Hsq HN HD)).
    assert (Fst : forall l z r, Forall (fun x => is_binomial (length dm) 2 (length x)) (l ++ z :: r) ->
      ~ one_cocycle ltD dm t table z -> exists a x b, l ++ z :: r = a ++ x :: b /\
        Forall (one_cocycle ltD dm t table) a /\ ~ one_cocycle ltD dm t table x /\
        (exists u, l ++ [z] = a ++ x :: u /\ b = u ++ r)).
    { intros l z r Fl Nz. apply Forall_app in Fl; destruct Fl as [Fl _].
      destruct (first_failing _ _ l Fl Dec) as [G|(a & x & b & -> & G & Nx)].
      - exists l, z, r; repeat split; try assumption. exists []; split; reflexivity.
      - exists a, x, (b ++ z :: r); rewrite <- app_assoc; repeat split; try assumption.
        exists (b ++ [z]); rewrite <- !app_assoc; split; reflexivity. }
    destruct (Fst pre c1 (mid ++ c2 :: post) F H1) as (a & x & b & E & Fa & Nx & u & E1 & ->).
    rewrite E in F; apply Forall_app in F; destruct F as [_ F]; inversion F as [|? ? _ F']; subst.
    rewrite app_assoc in F'.
    destruct (Fst (u ++ mid) c2 post F' H2) as (b' & y & e & E2 & Fb & Ny & _).
    exists a, x, b', y, e; repeat split; try assumption. rewrite E, <- E2, <- app_assoc; reflexivity. }
  destruct S0 as (a & x & b & y & e & E & Fa & Nx & Fb & Ny).
  rewrite E in F |- *; clear E.
  apply Forall_app in F; destruct F as [F1 F2]; inversion F2 as [|? ? Lx F3]; subst.
  destruct (loop_split ltD dm t N Dm Hsq HN HD junk p milp a x (b ++ y :: e) None F1 Fa) as (is & Li & E).
  unfold repair_all; fold table in E; rewrite E; clear E.
  destruct (step_first ltD dm t N Dm Hsq HN HD Hn junk p milp (Z.of_nat (length a)) x a Lx Nx) as (M & HM & E).
  fold table in E, HM; rewrite E; clear E.
  destruct (weight1 ltD dm t N Dm Hsq HN junk M 0 HD Hn (HM junk)) as [Hc _].
  pose proof (is_binomial_comb _ _ _ Lx) as Lx'.
  destruct (matvec_ok (K := Zring) M x (eq_trans Lx' (eq_sym Hc))) as (d & Ed & _).
  unfold repair_with; rewrite Ed; cbn [bind]; change (carrier Zring) with Z.
  destruct (milp M _) as [sol|]; cbn [bind]; [|eexists; split; [reflexivity|right; eexists; reflexivity]].
  destruct (_ =? _); cbn [bind]; [|eexists; split; [reflexivity|left; reflexivity]].
  match goal with |- context [for_in _ _ ?st] =>
    pose proof (loop_second_fails ltD dm t N Dm Hsq HN HD Hn junk p milp M b y e is st) as LF end.
  fold table in LF; rewrite LF; try assumption; try reflexivity; [|apply HM].
  eexists; split; [reflexivity|left; reflexivity].
Qed.

(** C21: the complex projective repair.  A 2-cocycle is kept; a vector that is not one
    always ends in NameError, because [scipy] is not a global of the module. *)
Theorem C21_repair_raises_NameError :
  forall (dm : list (list D)) t N Dm p c milp junk idx,
  square dm -> length dm <= N -> 3 <= Dm -> (Z.of_nat (length dm) <= 2345)%Z ->
  (forall L, NoDup L -> (forall s, In s L -> rips ltD dm t 3 s) -> (Z.of_nat (length L) <= 2 ^ 31)%Z) ->
  is_binomial (length dm) 3 (length c) ->
  let table := combinatorial_number_system_table N Dm in
  (two_cocycle ltD dm t table c ->
     repair_two ltD complexprojectivecoords_globals junk p milp dm t table idx c = Ok c) /\
  (~ two_cocycle ltD dm t table c ->
     repair_two ltD complexprojectivecoords_globals junk p milp dm t table idx c = Raise NameError).
Proof.
  intros dm t N Dm p c milp junk idx Hsq HN HD Hn Hl Lc table.
  destruct (C16_is_two_cocycle ltD dm t N Dm c Hsq HN HD Lc) as (b & E & Hb).
  unfold repair_two; fold table in E, Hb; rewrite E; cbn [bind]; split; intros H.
  - rewrite (proj2 Hb H); reflexivity.
  - destruct b; [tauto|]; cbn [negb].
    destruct (C13_delta2_compact ltD dm t N Dm Hsq HN HD Hn Hl) as (M & _ & HM & _).
    fold table in HM; rewrite HM; cbn [bind].
    destruct (weight2 ltD dm t N Dm Hsq HN junk M 0 HD Hn Hl (HM junk)) as [Hc _].
    apply is_binomial_comb in Lc.
    destruct (matvec_ok (K := Zring) M c (eq_trans Lc (eq_sym Hc))) as (d & Ed & _).
    rewrite Ed; reflexivity.
Qed.

(** C21: with [scipy] bound (the intended program) the repair is correct. *)
Theorem C21_repair_with_import :
  forall (dm : list (list D)) t N Dm p c eps tol milp junk idx globals,
  square dm -> length dm <= N -> 3 <= Dm -> (Z.of_nat (length dm) <= 2345)%Z -> (0 < p)%Z ->
  (forall L, NoDup L -> (forall s, In s L -> rips ltD dm t 3 s) -> (Z.of_nat (length L) <= 2 ^ 31)%Z) ->
  is_binomial (length dm) 3 (length c) ->
  (0 <= eps)%R -> (0 <= tol)%R -> (4 * eps + tol < 1)%R -> sound_milp eps tol milp ->
  In "scipy"%string globals -> In "LinearConstraint"%string globals ->
  let table := combinatorial_number_system_table N Dm in
  two_cocycle_mod ltD dm t table p c ->
  (exists c', repair_two ltD globals junk p milp dm t table idx c = Ok c' /\
     two_cocycle ltD dm t table c' /\ congruent_mod p c c') \/
  repair_two ltD globals junk p milp dm t table idx c = Raise (NoIntegralLift idx).
Proof.
  intros dm t N Dm p c eps tol milp junk idx globals Hsq HN HD Hn Hp Hl Lc He Ht He2 Hs G1 G2 table Hm.
  destruct (C16_is_two_cocycle ltD dm t N Dm c Hsq HN HD Lc) as (b & E & Hb).
  unfold repair_two; fold table in E, Hb; rewrite E; cbn [bind].
  destruct b; cbn [negb].
  - left; exists c; split; [reflexivity|split; [apply Hb; reflexivity|]].
    unfold congruent_mod. clear; induction c; constructor; [exists 0%Z; lia|assumption].
  - destruct (C13_delta2_compact ltD dm t N Dm Hsq HN HD Hn Hl) as (M & _ & HM & _).
    pose proof (HM junk) as EM; fold table in HM; rewrite HM; cbn [bind].
    destruct (weight2 ltD dm t N Dm Hsq HN junk M 0 HD Hn Hl EM) as [Hc _].
    assert (Hw : forall r, r < s_rows M -> (weight (row_entries M r) <= 4)%Z).
    { intros r; exact (proj2 (weight2 ltD dm t N Dm Hsq HN junk M r HD Hn Hl EM)). }
    apply is_binomial_comb in Lc.
    destruct (matvec_ok (K := Zring) M c (eq_trans Lc (eq_sym Hc))) as (d & Ed & _).
    rewrite Ed; cbn [bind].
    assert (GN : forall s, In s globals -> global_name globals s = Ok tt).
    { intros s Hin; unfold global_name; rewrite (proj2 (existsb_exists _ _)); [reflexivity|].
      exists s; split; [exact Hin|apply String.eqb_refl]. }
    rewrite !GN by assumption; cbn [bind].
    assert (Fd : Forall (fun v => (p | v)%Z) d)
      by (apply (rows2_P ltD dm t N Dm Hsq HN _ junk M c d HD Hn Hl EM Lc Ed); exact Hm).
    destruct (repair_with_ok 4 p milp M idx c d eps tol Hw) as [(c' & E' & Cg & z & Ez & Fz)|[E' _]];
      try assumption; try lia; try lra; [|right; exact E'].
    left; exists c'; split; [exact E'|split; [|exact Cg]].
    assert (Lc' : length c' = comb (length dm) 3) by (rewrite <- Lc; symmetry; eapply Forall2_length; exact Cg).
    exact (proj1 (rows2_P ltD dm t N Dm Hsq HN _ junk M c' z HD Hn Hl EM Lc' Ez) Fz).
Qed.
End Statements.

(** C19: rounding a near solution of any integer system whose rows have absolute weight
    at most [m] solves it exactly. *)
Theorem C19_rounding_is_exact :
  forall (m : Z) (M : sparse) y x eps tol,
  (forall r, r < s_rows M ->
     (fold_right Z.add 0 (map (fun e => Z.abs (snd e)) (filter (fun e => Nat.eqb (fst (fst e)) r) (s_entries M))) <= m)%Z) ->
  (0 <= eps < 1 / 2)%R -> (IZR m * eps + tol < 1)%R -> near_solution eps tol M y x ->
  matvec (K := Zring) M (map rint x) = Ok y.
Proof. exact rounding_exact. Qed.

(** C19: the rows of the two matrices have weight at most 3 and 4. *)
Theorem C19_row_weights :
  forall D (ltD : D -> D -> bool) (dm : list (list D)) t N Dm junk M,
  square dm -> length dm <= N -> (Z.of_nat (length dm) <= 2345)%Z ->
  let table := combinatorial_number_system_table N Dm in
  let weight_of r := fold_right Z.add 0%Z (map (fun e => Z.abs (snd e))
        (filter (fun e => Nat.eqb (fst (fst e)) r) (s_entries M))) in
  (2 <= Dm -> make_delta1_compact ltD junk dm t table = Ok M ->
     forall r, r < s_rows M -> (weight_of r <= 3)%Z) /\
  (3 <= Dm -> make_delta2_compact ltD junk dm t table = Ok M ->
     (forall L, NoDup L -> (forall s, In s L -> rips ltD dm t 3 s) -> (Z.of_nat (length L) <= 2 ^ 31)%Z) ->
     forall r, r < s_rows M -> (weight_of r <= 4)%Z).
Proof.
  intros D ltD dm t N Dm junk M Hsq HN Hn table weight_of; split; intros HD E.
  - intros r; apply (weight1 ltD dm t N Dm Hsq HN junk M r HD Hn E).
  - intros Hl r; apply (weight2 ltD dm t N Dm Hsq HN junk M r HD Hn Hl E).
Qed.

(** ** Concrete instances *)
(** Three close points, p = 3; [1; -1; 1] (edges 01, 02, 12) is a cocycle mod 3 only. *)
Definition tri_dm : list (list Z) := [[0; 1; 1]; [1; 0; 1]; [1; 1; 0]]%Z.
Definition tri_T := combinatorial_number_system_table 3 2.
Definition tri_c : list Z := [1; -1; 1]%Z.
Definition tri_M : sparse := mkSparse 1 3 [(0, 0, 1%Z); (0, 2, 1%Z); (0, 1, (-1)%Z)].
(** A solver for this instance, off by 1/100 in one entry. *)
Definition tri_milp : milp_solver := fun M y =>
  if (if list_eq_dec (fun a b : nat * nat * Z => ltac:(decide equality; [apply Z.eq_dec|decide equality; apply Nat.eq_dec]))
        (s_entries M) (s_entries tri_M) then true else false)
     && (s_rows M =? 1) && (s_cols M =? 3)
     && (if list_eq_dec Z.eq_dec y [1%Z] then true else false)
  then Some [1 + 1 / 100; 0; 0]%R else None.

Lemma tri_matrix junk : make_delta1_compact Z.ltb junk tri_dm 2%Z tri_T = Ok tri_M.
Proof. reflexivity. Qed.

Lemma tri_milp_answers : tri_milp tri_M [1%Z] = Some [1 + 1 / 100; 0; 0]%R.
Proof. reflexivity. Qed.

Lemma tri_milp_sound : sound_milp (1 / 100) (1 / 100) tri_milp.
Proof.
  intros M y x E; unfold tri_milp in E.
  destruct (list_eq_dec _ (s_entries M) _) as [H1|]; [|discriminate E].
  destruct (Nat.eqb_spec (s_rows M) 1) as [H2|]; [|discriminate E].
  destruct (Nat.eqb_spec (s_cols M) 3) as [H3|]; [|discriminate E].
  destruct (list_eq_dec Z.eq_dec y _) as [->|]; [|discriminate E].
  cbn [andb] in E; injection E as <-.
  split; [rewrite H3; reflexivity|split].
  - constructor; [exists 1%Z; apply Rabs_le; lra|]. do 2 (constructor; [exists 0%Z; apply Rabs_le; lra|]). constructor.
  - unfold matvec; rewrite H3, H2, H1; cbn.
    eexists; split; [reflexivity|]. constructor; [apply Rabs_le; lra|constructor].
Qed.

Lemma tri_mod3 : one_cocycle_mod Z.ltb tri_dm 2%Z tri_T 3%Z tri_c.
Proof.
  assert (L : length tri_c = comb (length tri_dm) 2) by reflexivity.
  assert (Sq : square tri_dm) by repeat constructor.
  unfold one_cocycle_mod.
  apply (rows1_P Z.ltb tri_dm 2%Z 3 2 Sq ltac:(cbn; lia) (fun v => (3 | v)%Z) (fun _ => 0%Z) tri_M tri_c [3%Z]);
    try lia; try reflexivity; try (constructor; [exists 1%Z; reflexivity|constructor]).
  cbn; lia.
Qed.

Lemma tri_not_cocycle : ~ one_cocycle Z.ltb tri_dm 2%Z tri_T tri_c.
Proof.
  assert (L : is_binomial (length tri_dm) 2 (length tri_c)) by (apply (comb_is_binomial 3 2)).
  assert (Sq : square tri_dm) by repeat constructor.
  destruct (C15_is_one_cocycle Z.ltb tri_dm 2%Z 3 2 tri_c Sq ltac:(cbn; lia) ltac:(lia) L) as (b & m & E & Hb & _).
  change (is_one_cocycle Z.ltb tri_c tri_dm 2%Z tri_T = Ok (b, m)) in E; vm_compute in E; injection E as <- <-.
  intros H; apply Hb in H; discriminate H.
Qed.

(** C20: the documented promise (all classes that need it are repaired) is false: here
    two classes need repair, each has an integral lift and the solver solves both. *)
Theorem C20_documented_repair_refuted :
  ~ (forall (dm : list (list Z)) t N Dm p cs eps tol milp junk M,
     square dm -> length dm <= N -> 2 <= Dm -> (Z.of_nat (length dm) <= 2345)%Z -> (0 < p)%Z ->
     Forall (fun x => is_binomial (length dm) 2 (length x)) cs ->
     (0 <= eps)%R -> (0 <= tol)%R -> (3 * eps + tol < 1)%R -> sound_milp eps tol milp ->
     let table := combinatorial_number_system_table N Dm in
     make_delta1_compact Z.ltb junk dm t table = Ok M ->
     Forall (fun c => one_cocycle_mod Z.ltb dm t table p c /\
        exists d x, matvec (K := Zring) M c = Ok d /\ milp M (map (fun v => (v / p)%Z) d) = Some x) cs ->
     exists cs', repair_all Z.ltb junk p milp dm t table cs = Ok cs' /\
       Forall2 (fun c c' => one_cocycle Z.ltb dm t table c' /\ congruent_mod p c c') cs cs').
Proof.
  intros H.
  assert (F : Forall (fun x => is_binomial (length tri_dm) 2 (length x)) [tri_c; tri_c])
    by (repeat constructor; apply (comb_is_binomial 3 2)).
  assert (Sq : square tri_dm) by repeat constructor.
  destruct (H tri_dm 2%Z 3 2 3%Z [tri_c; tri_c] (1 / 100)%R (1 / 100)%R tri_milp (fun _ => 0%Z) tri_M)
    as (cs' & E & _); try assumption; try lra; try (cbn; lia).
  - exact tri_milp_sound.
  - reflexivity.
  - assert (Q : one_cocycle_mod Z.ltb tri_dm 2%Z tri_T 3%Z tri_c /\
       exists d x, matvec (K := Zring) tri_M tri_c = Ok d /\ tri_milp tri_M (map (fun v => (v / 3)%Z) d) = Some x).
    { split; [exact tri_mod3|]. exists [3%Z]; eexists; split; [reflexivity|]. exact tri_milp_answers. }
    repeat constructor; apply Q.
  - destruct (C20_second_repair_raises Z.ltb tri_dm 2%Z 3 2 3%Z [] tri_c [] tri_c [] tri_milp (fun _ => 0%Z))
      as (err & E' & _); try assumption; try (cbn; lia); try exact tri_not_cocycle.
    change ([] ++ tri_c :: [] ++ [tri_c]) with [tri_c; tri_c] in E'. congruence.
Qed.

(** Non-vacuity of C18 and of the one-class case of C20: the repaired vector. *)
Example C18_example :
  repair_all Z.ltb (fun _ => 0%Z) 3%Z tri_milp tri_dm 2%Z tri_T [tri_c] = Ok [[-2; -1; 1]]%Z.
Proof.
  assert (E : repair_with 3%Z tri_milp tri_M 0%Z tri_c = Ok [-2; -1; 1]%Z).
  { unfold repair_with. change (matvec (K := Zring) tri_M tri_c) with (Ok (A := list Z) [3%Z]); cbn [bind].
    change (map (fun v => (v / 3)%Z) [3%Z]) with [1%Z]; rewrite tri_milp_answers. cbn [length tri_c Nat.eqb combine map fst snd].
    rewrite (rint_unique (1 + 1 / 100) 1) by (apply Rabs_def1; lra).
    rewrite (rint_IZR 0); reflexivity. }
  unfold repair_all; cbn [length combine map range seq Nat.sub Nat.add for_in].
  unfold repair_step; cbn [fst snd].
  change (is_one_cocycle Z.ltb tri_c tri_dm 2%Z tri_T) with (Ok (false, Some 1%Z)); cbn [bind fst].
  rewrite tri_matrix; cbn [bind]. change (Z.of_nat 0) with 0%Z; rewrite E; reflexivity.
Qed.

(** C21: the documented repair is refuted: a 2-cochain on four close points that is a
    cocycle mod 3 only, and any solver. *)
Definition tet_dm : list (list Z) := [[0; 1; 1; 1]; [1; 0; 1; 1]; [1; 1; 0; 1]; [1; 1; 1; 0]]%Z.
Definition tet_T := combinatorial_number_system_table 4 3.
Definition tet_c : list Z := [1; -1; 1; 0]%Z.

Lemma tet_rips L : NoDup L -> (forall s, In s L -> rips Z.ltb tet_dm 2%Z 3 s) -> (Z.of_nat (length L) <= 2 ^ 31)%Z.
Proof.
  intros ND H. assert (length L <= length (rl Z.ltb tet_dm 2%Z 3)).
  { apply NoDup_incl_length; [exact ND|]. intros s Hs; apply rl_rips, H, Hs. }
  change (length (rl Z.ltb tet_dm 2%Z 3)) with 1 in H0; lia.
Qed.

Theorem C21_documented_repair_refuted :
  forall milp junk idx,
  square tet_dm /\ is_binomial (length tet_dm) 3 (length tet_c) /\
  two_cocycle_mod Z.ltb tet_dm 2%Z tet_T 3%Z tet_c /\
  (exists c', two_cocycle Z.ltb tet_dm 2%Z tet_T c' /\ congruent_mod 3 tet_c c') /\
  repair_two Z.ltb complexprojectivecoords_globals junk 3%Z milp tet_dm 2%Z tet_T idx tet_c = Raise NameError.
Proof.
  intros milp junk idx.
  assert (Sq : square tet_dm) by repeat constructor.
  assert (L : is_binomial (length tet_dm) 3 (length tet_c)) by (apply (comb_is_binomial 4 3)).
  assert (R : forall (P : Z -> Prop) c w, length c = comb (length tet_dm) 3 ->
      (M <- make_delta2_compact Z.ltb (fun _ => 0%Z) tet_dm 2%Z tet_T ;; matvec (K := Zring) M c) = Ok w -> Forall P w ->
      forall i j k l a b e f, rips Z.ltb tet_dm 2%Z 3 [i; j; k; l] ->
        value_at tet_T c [i; j; k] a -> value_at tet_T c [i; j; l] b -> value_at tet_T c [i; k; l] e ->
        value_at tet_T c [j; k; l] f -> P (a - b + e - f)%Z).
  { intros P c w Lc E F.
    destruct (make_delta2_compact Z.ltb (fun _ => 0%Z) tet_dm 2%Z tet_T) as [M|] eqn:EM; [|discriminate E]; cbn [bind] in E.
    apply (rows2_P Z.ltb tet_dm 2%Z 4 3 Sq ltac:(cbn; lia) P (fun _ => 0%Z) M c w); try assumption; try lia; try exact tet_rips.
    cbn; lia. }
  split; [exact Sq|split; [exact L|split; [|split]]].
  - intros i j k l a b e f. apply (R (fun v => (3 | v)%Z) tet_c [3%Z]); try reflexivity.
    constructor; [exists 1%Z; reflexivity|constructor].
  - exists [-2; -1; 1; 0]%Z; split.
    + intros i j k l a b e f. apply (R (fun v => v = 0%Z) [-2; -1; 1; 0]%Z [0%Z]); try reflexivity.
      repeat constructor.
    + constructor; [exists 1%Z; reflexivity|]. do 3 (constructor; [exists 0%Z; reflexivity|]). constructor.
  - apply (C21_repair_raises_NameError Z.ltb tet_dm 2%Z 4 3); try assumption; try exact tet_rips; try lia; try (cbn; lia).
    destruct (C16_is_two_cocycle Z.ltb tet_dm 2%Z 4 3 tet_c Sq ltac:(cbn; lia) ltac:(lia) L) as (b & E & Hb).
    change (is_two_cocycle Z.ltb tet_c tet_dm 2%Z tet_T = Ok b) in E; vm_compute in E; injection E as <-.
    intros H; apply Hb in H; discriminate H.
Qed.

Print Assumptions C18_repair.
Print Assumptions C18_feasible_iff_integral_lift.
Print Assumptions C18_failure_means_no_lift.
Print Assumptions C20_one_class_is_repaired.
Print Assumptions C20_second_repair_raises.
Print Assumptions C21_repair_raises_NameError.
Print Assumptions C21_repair_with_import.
Print Assumptions C19_rounding_is_exact.
Print Assumptions C19_row_weights.
Print Assumptions C20_documented_repair_refuted.
Print Assumptions C21_documented_repair_refuted.
