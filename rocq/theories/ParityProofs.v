(** ParityProofs.v -- the cycle-walking loop of [parity] computes the sign.
    While the loop runs we keep a permutation [q] that agrees with the input on the
    elements seen so far and is the identity on the others; each newly seen element of
    a cycle is one transposition applied to [q]. *)
From Coq Require Import Permutation.
From Verif Require Import Base BaseProofs CohomologyModel SpecCohomology SignProofs.

Lemma orientation_far_swap b : forall a x y c, NoDup (a ++ x :: b ++ y :: c) ->
  orientation (a ++ x :: b ++ y :: c) = (- orientation (a ++ y :: b ++ x :: c))%Z.
Proof.
  induction b as [|z b IH]; intros a x y c N; cbn [app] in *.
  - apply orientation_swap; intros ->.
    apply NoDup_remove_2 in N; apply N, in_or_app; right; left; reflexivity.
  - assert (P : Permutation (a ++ x :: z :: b ++ y :: c) (a ++ z :: x :: b ++ y :: c))
      by (apply Permutation_app_head, perm_swap).
    pose proof (Permutation_NoDup P N) as N2.
    replace (a ++ z :: x :: b ++ y :: c) with ((a ++ [z]) ++ x :: b ++ y :: c) in N2
      by (rewrite <- app_assoc; reflexivity).
    assert (xz : x <> z).
    { intros ->; apply NoDup_remove_2 in N; apply N, in_or_app; right; left; reflexivity. }
    assert (zy : z <> y).
    { intros ->. rewrite <- app_assoc in N2; cbn [app] in N2; apply NoDup_remove_2 in N2; apply N2.
      apply in_or_app; right; right; apply in_or_app; right; left; reflexivity. }
    rewrite (orientation_swap a x z _ xz).
    pose proof (IH (a ++ [z]) x y c N2) as E; rewrite <- !app_assoc in E; cbn [app] in E.
    rewrite E, (orientation_swap a z y _ zy); lia.
Qed.

Lemma swap_exists (q : list nat) i j : i <> j -> i < length q -> j < length q -> NoDup q ->
  exists q', Permutation q' q /\ length q' = length q /\
    nth i q' 0 = nth j q 0 /\ nth j q' 0 = nth i q 0 /\
    (forall k, k <> i -> k <> j -> nth k q' 0 = nth k q 0) /\
    orientation (map Z.of_nat q') = (- orientation (map Z.of_nat q))%Z.
Proof.
  assert (W : forall i j, i < j -> j < length q -> NoDup q ->
    exists q', Permutation q' q /\ length q' = length q /\
      nth i q' 0 = nth j q 0 /\ nth j q' 0 = nth i q 0 /\
      (forall k, k <> i -> k <> j -> nth k q' 0 = nth k q 0) /\
      orientation (map Z.of_nat q') = (- orientation (map Z.of_nat q))%Z).
  { clear i j; intros i j L Lj N.
    destruct (nth_split q 0 (n := i)) as (a & r & E & La); [lia|].
    set (x := nth i q 0) in *.
    assert (Lr : j - i - 1 < length r).
    { rewrite E, app_length in Lj; cbn [length] in Lj; lia. }
    destruct (nth_split r 0 Lr) as (b & c & Er & Lb).
    set (y := nth (j - i - 1) r 0) in *.
    rewrite Er in E; clearbody x y; subst r.
    assert (Ej : j = length (a ++ x :: b)) by (rewrite app_length; cbn [length]; lia).
    assert (Gj : forall u v, nth j (a ++ u :: b ++ v :: c) 0 = v).
    { intros u v; replace (a ++ u :: b ++ v :: c) with ((a ++ u :: b) ++ v :: c)
        by (rewrite <- app_assoc; reflexivity).
      rewrite app_nth2, Ej by (rewrite !app_length in *; cbn [length] in *; lia).
      rewrite !app_length; cbn [length]; rewrite Nat.sub_diag; reflexivity. }
    assert (Gi : forall u v, nth i (a ++ u :: b ++ v :: c) 0 = u).
    { intros u v; rewrite app_nth2, La, Nat.sub_diag by lia; reflexivity. }
    exists (a ++ y :: b ++ x :: c); subst q; rewrite !Gi, !Gj; repeat split.
    - apply Permutation_app_head.
      rewrite (Permutation_app_comm b (x :: c)), (Permutation_app_comm b (y :: c)); cbn [app].
      apply perm_swap.
    - rewrite !app_length; cbn [length]; rewrite !app_length; reflexivity.
    - intros k ki kj; destruct (Nat.lt_ge_cases k (length a)) as [Ha|Ha].
      + rewrite !app_nth1 by exact Ha; reflexivity.
      + rewrite !(app_nth2 a) by lia.
        destruct (k - length a) as [|m] eqn:Em; [lia|]; cbn [nth].
        destruct (Nat.lt_ge_cases m (length b)) as [Hb|Hb].
        * rewrite !app_nth1 by exact Hb; reflexivity.
        * rewrite !(app_nth2 b) by lia.
          destruct (m - length b) as [|m'] eqn:Em'; [|reflexivity].
          exfalso; apply kj; rewrite Ej, app_length; cbn [length]; lia.
    - rewrite !map_app; cbn [map]; rewrite !map_app; cbn [map].
      rewrite (orientation_far_swap (map Z.of_nat b)); [lia|].
      assert (NM : NoDup (map Z.of_nat (a ++ x :: b ++ y :: c))).
      { apply FinFun.Injective_map_NoDup; [intros u v; apply Nat2Z.inj|exact N]. }
      assert (P : Permutation (map Z.of_nat (a ++ y :: b ++ x :: c)) (map Z.of_nat (a ++ x :: b ++ y :: c))).
      { apply Permutation_map, Permutation_app_head.
        rewrite (Permutation_app_comm b (x :: c)), (Permutation_app_comm b (y :: c)); cbn [app].
        apply perm_swap. }
      pose proof (Permutation_NoDup (Permutation_sym P) NM) as NM'.
      rewrite !map_app in NM'; cbn [map] in NM'; rewrite !map_app in NM'; exact NM'. }
  intros ne Hi Hj N; destruct (Nat.lt_ge_cases i j) as [L|G].
  - apply W; assumption.
  - destruct (W j i) as (q' & P & L & A & B & C & O); [lia|exact Hi|exact N|].
    exists q'; repeat split; try assumption. intros k ki kj; apply C; assumption.
Qed.

Section Walk.
Variables (n : nat) (p : list nat).
Hypothesis Hp : Permutation p (seq 0 n).

Lemma p_length : length p = n.
Proof. rewrite (Permutation_length Hp), seq_length; reflexivity. Qed.

Lemma perm_nth_lt q i : Permutation q (seq 0 n) -> i < n -> nth i q 0 < n.
Proof.
  intros H Hi.
  assert (L : length q = n) by (rewrite (Permutation_length H), seq_length; reflexivity).
  assert (I : In (nth i q 0) (seq 0 n)) by (apply (Permutation_in _ H), nth_In; lia).
  apply in_seq in I; lia.
Qed.

Lemma perm_nth_inj q i j : Permutation q (seq 0 n) -> i < n -> j < n ->
  nth i q 0 = nth j q 0 -> i = j.
Proof.
  intros H Hi Hj E.
  assert (L : length q = n) by (rewrite (Permutation_length H), seq_length; reflexivity).
  assert (N : NoDup q) by (apply (Permutation_NoDup (Permutation_sym H)), seq_NoDup).
  rewrite (NoDup_nth q 0) in N; apply N; lia || exact E.
Qed.

Lemma perm_nth_surj q v : Permutation q (seq 0 n) -> v < n -> exists i, i < n /\ nth i q 0 = v.
Proof.
  intros H Hv.
  assert (L : length q = n) by (rewrite (Permutation_length H), seq_length; reflexivity).
  assert (I : In v q) by (apply (Permutation_in _ (Permutation_sym H)), in_seq; lia).
  destruct (In_nth q v 0 I) as (i & Hi & E); exists i; split; [lia|exact E].
Qed.

Definition count (seen : list bool) : nat := length (filter (fun b => b) seen).

Lemma count_le seen : count seen <= length seen.
Proof.
  unfold count; induction seen as [|b seen IH]; cbn [filter length]; [lia|].
  destruct b; cbn [length]; lia.
Qed.

Lemma mark seen i : i < length seen -> nth i seen true = false ->
  exists seen', set_at IndexError seen i true = Ok seen' /\ length seen' = length seen /\
    nth i seen' true = true /\ (forall k, k <> i -> nth k seen' true = nth k seen true) /\
    count seen' = S (count seen).
Proof.
  intros Hi Hf; destruct (set_at_ok IndexError seen i true Hi) as (s' & E & L & N1 & N2 & _).
  exists s'; split; [exact E|split; [exact L|split; [|split]]].
  - apply nth_error_nth; exact N1.
  - intros k Hk; specialize (N2 k Hk).
    destruct (nth_error seen k) as [b|] eqn:Eb.
    + rewrite (nth_error_nth _ _ true Eb), (nth_error_nth _ _ true N2); reflexivity.
    + apply nth_error_None in Eb, N2; rewrite !nth_overflow by assumption; reflexivity.
  - unfold set_at in E; destruct (Nat.ltb_spec i (length seen)); [|discriminate E].
    apply Ok_inj in E; subst s'. unfold count; rewrite filter_app, app_length; cbn [filter length].
    destruct (nth_split seen true Hi) as (a & c & Ea & La).
    assert (F : firstn i seen = a) by (rewrite Ea, <- La, firstn_app, Nat.sub_diag; cbn [firstn]; rewrite app_nil_r; apply firstn_all).
    assert (S1 : skipn (S i) seen = c).
    { rewrite Ea, <- La, skipn_app. replace (S (length a) - length a) with 1 by lia.
      rewrite skipn_all2 by lia; reflexivity. }
    rewrite F, S1, Ea, Hf, filter_app, app_length; cbn [filter]; lia.
Qed.

(** [q] records the cycles closed so far. *)
Definition closed (seen : list bool) (q : list nat) : Prop :=
  length seen = n /\ Permutation q (seq 0 n) /\
  (forall i, i < n -> nth i seen true = false -> nth i q 0 = i) /\
  (forall i, i < n -> nth i seen true = true -> nth i q 0 = nth i p 0).

(** [q] with the cycle through [c0] still open at [prev]. *)
Definition opened (seen : list bool) (q : list nat) (c0 prev : nat) : Prop :=
  length seen = n /\ Permutation q (seq 0 n) /\
  (forall i, i < n -> nth i seen true = false -> nth i q 0 = i) /\
  (forall i, i < n -> nth i seen true = true -> i <> prev -> nth i q 0 = nth i p 0) /\
  prev < n /\ nth prev seen true = true /\ nth prev q 0 = c0.

Definition ori (q : list nat) : Z := orientation (map Z.of_nat q).

Lemma walk_closes fuel : forall seen q c0 prev,
  opened seen q c0 prev -> n - count seen < fuel ->
  exists seen' q', parity_walk fuel p seen (nth prev p 0) = Ok seen' /\ closed seen' q' /\
    (forall i, i < n -> nth i seen true = true -> nth i seen' true = true) /\
    (ori q' * sign_of (count seen'))%Z = (ori q * sign_of (count seen))%Z.
Proof.
  induction fuel as [|fuel IH]; intros seen q c0 prev (Ls & Hq & Hu & Hs & Hpr & Hprs & Hc0) Hf; [lia|].
  cbn [parity_walk].
  assert (Hcur : nth prev p 0 < n) by (apply perm_nth_lt; assumption).
  rewrite (get_ok _ seen (nth prev p 0) true) by lia; cbn [bind].
  destruct (nth (nth prev p 0) seen true) eqn:Ec.
  - (* the cycle closes *)
    destruct (perm_nth_surj q (nth prev p 0) Hq Hcur) as (i & Hi & Ei).
    assert (Hip : i = prev).
    { destruct (Nat.eq_dec i prev) as [e|ne]; [exact e|].
      destruct (nth i seen true) eqn:Es.
      - apply (perm_nth_inj p i prev Hp Hi Hpr). rewrite <- Ei; symmetry; apply Hs; assumption.
      - rewrite (Hu i Hi Es) in Ei; subst i; congruence. }
    subst i; exists seen, q; split; [reflexivity|split; [|split; [tauto|reflexivity]]].
    split; [exact Ls|split; [exact Hq|split; [exact Hu|]]].
    intros k Hk Es; destruct (Nat.eq_dec k prev) as [->|ne]; [exact Ei|apply Hs; assumption].
  - destruct (mark seen (nth prev p 0)) as (s' & E' & L' & M1 & M2 & Mc); [lia|exact Ec|].
    rewrite E'; cbn [bind]; rewrite (get_ok _ p _ 0) by (rewrite p_length; exact Hcur); cbn [bind].
    assert (ne : prev <> nth prev p 0) by congruence.
    assert (Lq : length q = n) by (rewrite (Permutation_length Hq), seq_length; reflexivity).
    destruct (swap_exists q prev (nth prev p 0)) as (q' & P & L & A & B & C & O);
      [exact ne|lia|lia|apply (Permutation_NoDup (Permutation_sym Hq)), seq_NoDup|].
    rewrite (Hu _ Hcur Ec) in A; rewrite Hc0 in B.
    assert (Hop : opened s' q' c0 (nth prev p 0)).
    { split; [lia|split; [rewrite P; exact Hq|split; [|split; [|split; [exact Hcur|split; [exact M1|exact B]]]]]].
      - intros i Hi Es.
        assert (i <> nth prev p 0) by congruence.
        assert (Es0 : nth i seen true = false) by (rewrite <- M2; assumption).
        assert (i <> prev) by congruence.
        rewrite C by assumption; apply Hu; assumption.
      - intros i Hi Es ni; destruct (Nat.eq_dec i prev) as [->|np]; [exact A|].
        rewrite C by assumption; apply Hs; try assumption. rewrite <- M2; assumption. }
    pose proof (count_le s').
    destruct (IH s' q' c0 (nth prev p 0) Hop) as (s2 & q2 & E2 & Cl & Mono & O2); [lia|].
    exists s2, q2; split; [exact E2|split; [exact Cl|split]].
    + intros i Hi Es; apply Mono; [exact Hi|].
      destruct (Nat.eq_dec i (nth prev p 0)) as [->|ni]; [exact M1|rewrite M2; assumption].
    + rewrite O2; unfold ori; rewrite O, Mc, sign_of_S; lia.
Qed.

Lemma parity_loop_ok : exists seen c,
  parity_loop (n + 1) p = Ok (seen, c) /\ ori p = sign_of (n + c).
Proof.
  unfold parity_loop; rewrite p_length, range_0.
  match goal with |- context [for_in _ ?b _] => set (body := b) end.
  set (I := fun (pre : list nat) (st : list bool * nat) =>
    exists q, closed (fst st) q /\ ori q = sign_of (count (fst st) + snd st) /\
      forall i, In i pre -> nth i (fst st) true = true).
  destruct (for_in_inv (seq 0 n) body I (repeat false n, 0)) as ((seen & c) & E & q & Cl & O & All).
  - exists (seq 0 n); cbn [fst snd]; split; [|split].
    + split; [apply repeat_length|split; [reflexivity|split]].
      * intros i Hi _; rewrite seq_nth by exact Hi; reflexivity.
      * intros i Hi E; rewrite (nth_indep _ _ false) in E by (rewrite repeat_length; exact Hi).
        rewrite nth_repeat in E; discriminate E.
    + assert (count (repeat false n) = 0) as -> by (unfold count; clear; induction n; cbn; auto).
      unfold ori, orientation; rewrite sorted_no_inversions; [reflexivity|].
      generalize 0; clear; induction n as [|m IH]; intros s; cbn [seq map]; constructor; [apply IH|].
      apply Forall_forall; intros z Hz; apply in_map_iff in Hz; destruct Hz as (k & <- & Hk).
      apply in_seq in Hk; lia.
    + intros i [].
  - intros pre x post [seen c] El (q & Cl & O & All); cbn [fst snd] in *.
    assert (Hx : x < n).
    { assert (H : In x (seq 0 n)) by (rewrite El; apply in_or_app; right; left; reflexivity).
      apply in_seq in H; lia. }
    destruct Cl as (Ls & Hq & Hu & Hs).
    unfold body; cbn [fst snd]; rewrite (get_ok _ seen x true) by lia; cbn [bind].
    destruct (nth x seen true) eqn:Es.
    + exists (seen, c); split; [reflexivity|]. exists q; cbn [fst snd].
      split; [split; [exact Ls|split; [exact Hq|split; [exact Hu|exact Hs]]]|split; [exact O|]].
      intros i Hi; apply in_app_or in Hi; destruct Hi as [Hi|[<-|[]]]; [apply All; exact Hi|exact Es].
    + rewrite Nat.add_1_r; cbn [parity_walk]; rewrite (get_ok _ seen x true) by lia; cbn [bind].
      rewrite Es; destruct (mark seen x) as (s' & E' & L' & M1 & M2 & Mc); [lia|exact Es|].
      rewrite E'; cbn [bind]; rewrite (get_ok _ p _ 0) by (rewrite p_length; exact Hx); cbn [bind].
      assert (Hop : opened s' q x x).
      { split; [lia|split; [exact Hq|split; [|split; [|split; [exact Hx|split; [exact M1|apply Hu; assumption]]]]]].
        - intros i Hi Ei; apply Hu; [exact Hi|].
          destruct (Nat.eq_dec i x) as [->|ni]; [congruence|rewrite <- M2; assumption].
        - intros i Hi Ei ni; apply Hs; [exact Hi|rewrite <- M2; assumption]. }
      pose proof (count_le s').
      destruct (walk_closes n s' q x x Hop) as (s2 & q2 & E2 & Cl2 & Mono & O2); [lia|].
      rewrite E2; cbn [bind]; exists (s2, c + 1); split; [reflexivity|].
      exists q2; cbn [fst snd]; split; [exact Cl2|split].
      * assert (K : (ori q2 * (sign_of (count s2) * sign_of (count s2)))%Z =
                    (ori q * sign_of (count s') * sign_of (count s2))%Z) by (rewrite Z.mul_assoc, O2; reflexivity).
        rewrite sign_of_sq, Z.mul_1_r in K; rewrite K, O, Mc, !sign_of_add, !sign_of_S.
        change (sign_of 0) with 1%Z; destruct (sign_of_cases (count seen)) as [-> | ->]; ring.
      * intros i Hi; apply in_app_or in Hi; destruct Hi as [Hi|[<-|[]]].
        -- assert (Hin : i < n).
           { assert (H0 : In i (seq 0 n)) by (rewrite El; apply in_or_app; left; exact Hi).
             apply in_seq in H0; lia. }
           apply Mono; [exact Hin|].
           destruct (Nat.eq_dec i x) as [->|ni]; [exact M1|rewrite M2 by exact ni; apply All; exact Hi].
        -- apply Mono; [exact Hx|exact M1].
  - exists seen, c; split; [exact E|]. cbn [fst snd] in *.
    destruct Cl as (Ls & Hq & Hu & Hs).
    assert (q = p) as ->.
    { apply (nth_ext _ _ 0 0).
      - rewrite (Permutation_length Hq), (Permutation_length Hp); reflexivity.
      - intros i Hi; rewrite (Permutation_length Hq), seq_length in Hi.
        apply Hs; [exact Hi|apply All, in_seq; lia]. }
    assert (count seen = n) as <-; [|exact O].
    assert (F : forall i, i < length seen -> nth i seen true = true).
    { intros i Hi; apply All, in_seq; lia. }
    rewrite <- Ls; unfold count; clear - F; induction seen as [|b s IH]; [reflexivity|].
    pose proof (F 0 ltac:(cbn; lia)) as F0; cbn in F0; subst b; cbn [filter length]; f_equal.
    apply IH; intros i Hi; apply (F (S i)); cbn; lia.
Qed.
End Walk.

Theorem parity_orientation n p : Permutation p (seq 0 n) ->
  parity p = Ok (orientation (map Z.of_nat p)).
Proof.
  intros Hp; unfold parity; rewrite (p_length n p Hp).
  destruct (parity_loop_ok n p Hp) as (seen & c & E & O); rewrite E; cbn [bind snd].
  fold (ori p); rewrite O; f_equal; unfold sign_of.
  rewrite Z.even_sub, Nat.even_add.
  assert (Ev : forall m, Z.even (Z.of_nat m) = Nat.even m).
  { intros m; induction m as [|m IHm]; [reflexivity|].
    rewrite Nat2Z.inj_succ, Z.even_succ, <- Z.negb_even, IHm, Nat.even_succ, <- Nat.negb_even; reflexivity. }
  rewrite !Ev; reflexivity.
Qed.
