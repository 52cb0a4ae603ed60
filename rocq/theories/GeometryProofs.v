(** GeometryProofs.v -- lemmas about distances and furthest point sampling. *)
From Coq Require Import List ZArith Reals Lia Lra Psatz.
From Verif Require Import Base BaseProofs RealBase RealSum SpecEM LLLModel SpecLLL LLLProofs GeometryModel SpecGeometry.
Import ListNotations.
Local Open Scope nat_scope.

Section Greedy.
Context {A : Type}.
Variable ltb : A -> A -> bool.
Hypothesis irr : forall a, ltb a a = false.
Hypothesis trans : forall a b c, ltb a b = true -> ltb b c = true -> ltb a c = true.
Hypothesis total : forall a b, ltb a b = false -> ltb b a = false -> a = b.
Definition le (a b : A) : Prop := ltb b a = false.

Lemma lt_le a b : ltb a b = true -> le a b.
Proof. intros H. unfold le. destruct (ltb b a) eqn:E; [|reflexivity]. pose proof (trans a b a H E) as K. rewrite irr in K. discriminate. Qed.
Lemma le_refl a : le a a. Proof. apply irr. Qed.
Lemma le_trans a b c : le a b -> le b c -> le a c.
Proof.
  unfold le. intros H1 H2. destruct (ltb c a) eqn:E; [|reflexivity].
  destruct (ltb b c) eqn:E2.
  - rewrite (trans b c a E2 E) in H1. discriminate.
  - rewrite (total b c E2 H2) in H1. congruence.
Qed.
Lemma lt_le_trans a b c : ltb a b = true -> le b c -> ltb a c = true.
Proof.
  intros H1 H2. destruct (ltb b c) eqn:E; [exact (trans a b c H1 E)|]. rewrite <- (total b c E H2). exact H1.
Qed.
Lemma lt_neq a b : ltb a b = true -> a <> b.
Proof. intros H ->. rewrite irr in H. discriminate. Qed.

Lemma argmax_scan_spec l : forall pre best pos, nth_error pre pos = Some best ->
  (forall j y, nth_error pre j = Some y -> le y best) ->
  (forall j y, j < pos -> nth_error pre j = Some y -> ltb y best = true) ->
  exists x, nth_error (pre ++ l) (argmax_scan ltb best pos (length pre) l) = Some x /\
    (forall j y, nth_error (pre ++ l) j = Some y -> le y x) /\
    (forall j y, j < argmax_scan ltb best pos (length pre) l -> nth_error (pre ++ l) j = Some y -> ltb y x = true).
Proof.
  induction l as [|x l IH]; intros pre best pos Hp Hle Hlt.
  - rewrite app_nil_r. cbn. exists best. auto.
  - replace (pre ++ x :: l) with ((pre ++ [x]) ++ l) by (rewrite <- app_assoc; reflexivity).
    cbn [argmax_scan]. replace (S (length pre)) with (length (pre ++ [x])) by (rewrite app_length; cbn; lia).
    assert (Hpos : pos < length pre) by (apply nth_error_Some; congruence).
    assert (Hcase : forall j y, nth_error (pre ++ [x]) j = Some y -> nth_error pre j = Some y \/ (j = length pre /\ y = x)).
    { intros j y H. destruct (Nat.lt_ge_cases j (length pre)) as [L|L]; [rewrite nth_error_app1 in H by exact L; auto|].
      rewrite nth_error_app2 in H by exact L. destruct (j - length pre) as [|k] eqn:Ek; cbn in H; [injection H as <-; right; split; [lia|reflexivity]|destruct k; discriminate]. }
    destruct (ltb best x) eqn:E; apply IH.
    + rewrite nth_error_app2 by lia. rewrite Nat.sub_diag. reflexivity.
    + intros j y H. destruct (Hcase j y H) as [H'|[_ ->]]; [|apply le_refl]. apply (le_trans y best x); [exact (Hle j y H')|apply lt_le; exact E].
    + intros j y Hj H. destruct (Hcase j y H) as [H'|[Hj' _]]; [|lia].
      destruct (ltb y best) eqn:Eb; [exact (trans y best x Eb E)|].
      rewrite (total y best Eb (Hle j y H')). exact E.
    + rewrite nth_error_app1 by exact Hpos. exact Hp.
    + intros j y H. destruct (Hcase j y H) as [H'|[_ ->]]; [exact (Hle j y H')|exact E].
    + intros j y Hj H. destruct (Hcase j y H) as [H'|[Hj' _]]; [exact (Hlt j y Hj H')|lia].
Qed.
Lemma argmax_ok l : l <> [] -> exists p x, argmax ltb l = Ok p /\ nth_error l p = Some x /\
  (forall j y, nth_error l j = Some y -> le y x) /\ (forall j y, j < p -> nth_error l j = Some y -> ltb y x = true).
Proof.
  intros Hl. destruct l as [|a l]; [congruence|]. cbn [argmax].
  destruct (argmax_scan_spec l [a] a 0 eq_refl) as [x [H1 [H2 H3]]].
  - intros j y H. destruct j as [|[|j]]; cbn in H; try discriminate. injection H as <-. apply le_refl.
  - intros j y Hj. lia.
  - exists (argmax_scan ltb a 0 1 l), x. cbn [app length] in *. auto.
Qed.

Lemma minimum_length u v : length u = length v -> length (minimum ltb u v) = length u.
Proof. intros H. unfold minimum. rewrite map_length, combine_length. lia. Qed.
Lemma minimum_nth u : forall v j dflt, length u = length v -> j < length u ->
  nth j (minimum ltb u v) dflt = if ltb (nth j v dflt) (nth j u dflt) then nth j v dflt else nth j u dflt.
Proof.
  induction u as [|a u IH]; intros [|b v] j dflt Hl Hj; cbn in Hl, Hj; try lia.
  destruct j; cbn; [reflexivity|]. apply IH; lia.
Qed.

Section Loop.
Variables (N : nat) (zero : A) (row : nat -> res (list A)) (r : nat -> list A).
Hypothesis Hrow : forall k, k < N -> row k = Ok (r k).
Hypothesis Hlen : forall k, k < N -> length (r k) = N.
Hypothesis HN : 1 <= N.
Let d (k j : nat) : A := nth j (r k) zero.

Definition Inv (m : nat) (st : greedy_state A) : Prop :=
  1 <= m /\ length (g_perm st) = m /\ length (g_lambdas st) = m /\
  nth_error (g_perm st) 0 = Some 0 /\ nth_error (g_lambdas st) 0 = Some zero /\
  Forall (fun k => k < N) (g_perm st) /\
  g_D st = map r (g_perm st) /\ length (g_ds st) = N /\
  (forall j, j < N -> (exists k, k < m /\ nth j (g_ds st) zero = d (nth k (g_perm st) 0) j) /\
     forall k, k < m -> le (nth j (g_ds st) zero) (d (nth k (g_perm st) 0) j)) /\
  (forall i, 1 <= i < m -> exists p, nth_error (g_perm st) i = Some p /\ greedy_entry le N d (g_perm st) i p (nth i (g_lambdas st) zero)).

Lemma inv_init : Inv 1 (mkGreedy [0] [zero] [r 0] (r 0)).
Proof.
  repeat split; cbn [g_perm g_lambdas g_D g_ds length]; try reflexivity; try lia.
  - constructor; [lia|constructor].
  - apply Hlen. lia.
  - exists 0. split; [lia|reflexivity].
  - intros k Hk. replace k with 0 by lia. apply le_refl.
Qed.
Lemma entry_ext perm perm' i p lam : (forall k, k < i -> nth k perm 0 = nth k perm' 0) ->
  greedy_entry le N d perm i p lam -> greedy_entry le N d perm' i p lam.
Proof.
  intros E [H1 [H2 [[k0 [Hk0 H3]] [H4 H5]]]]. split; [exact H1|]. split; [|split; [|split]].
  - intros k Hk. rewrite <- E by exact Hk. apply H2. exact Hk.
  - exists k0. split; [exact Hk0|]. rewrite <- E by exact Hk0. exact H3.
  - intros j Hj. destruct (H4 j Hj) as [k [Hk H]]. exists k. rewrite <- E by exact Hk. auto.
  - intros j Hj. destruct (H5 j Hj) as [k [Hk H]]. exists k. rewrite <- E by exact Hk. auto.
Qed.

Lemma inv_step m st : Inv m st -> exists st', greedy_step ltb row st = Ok st' /\ Inv (S m) st'.
Proof.
  intros [Hm [Hlp [Hll [Hp0 [Hl0 [Hin [HD [Hds [Hmin Hent]]]]]]]]].
  destruct (argmax_ok (g_ds st)) as [p [x [Ep [Ex [Hmax Hfirst]]]]]; [intros E; rewrite E in Hds; cbn in Hds; lia|].
  assert (Hp : p < N) by (rewrite <- Hds; apply nth_error_Some; congruence).
  assert (Hxp : nth p (g_ds st) zero = x) by (apply nth_error_nth; exact Ex).
  unfold greedy_step. rewrite Ep. cbn [bind]. unfold get. rewrite Ex. cbn [bind]. rewrite (Hrow p Hp). cbn [bind].
  eexists. split; [reflexivity|]. unfold Inv. cbn [g_perm g_lambdas g_D g_ds].
  assert (Hold : forall k, k < m -> nth k (g_perm st ++ [p]) 0 = nth k (g_perm st) 0) by (intros k Hk; apply app_nth1; lia).
  assert (Hnew : nth m (g_perm st ++ [p]) 0 = p) by (rewrite app_nth2 by lia; rewrite Hlp, Nat.sub_diag; reflexivity).
  split; [lia|]. split; [rewrite app_length; cbn; lia|]. split; [rewrite app_length; cbn; lia|].
  split; [rewrite nth_error_app1 by lia; exact Hp0|]. split; [rewrite nth_error_app1 by lia; exact Hl0|].
  split; [apply Forall_app; split; [exact Hin|constructor; [exact Hp|constructor]]|].
  split; [rewrite map_app, HD; reflexivity|].
  split; [rewrite minimum_length; [exact Hds|rewrite Hlen by exact Hp; exact Hds]|].
  split.
  - intros j Hj. rewrite minimum_nth by (rewrite ?Hlen by exact Hp; lia). fold (d p j).
    destruct (Hmin j Hj) as [[k0 [Hk0 E0]] Hle]. destruct (ltb (d p j) (nth j (g_ds st) zero)) eqn:E.
    + split; [exists m; split; [lia|rewrite Hnew; reflexivity]|]. intros k Hk.
      destruct (Nat.eq_dec k m) as [->|Hne]; [rewrite Hnew; apply le_refl|]. rewrite Hold by lia.
      apply (le_trans _ (nth j (g_ds st) zero)); [apply lt_le; exact E|apply Hle; lia].
    + split; [exists k0; split; [lia|rewrite Hold by lia; exact E0]|]. intros k Hk.
      destruct (Nat.eq_dec k m) as [->|Hne]; [rewrite Hnew; exact E|]. rewrite Hold by lia. apply Hle. lia.
  - intros i Hi. destruct (Nat.eq_dec i m) as [->|Hne].
    + exists p. split; [rewrite nth_error_app2 by lia; rewrite Hlp, Nat.sub_diag; reflexivity|].
      replace (nth m (g_lambdas st ++ [x]) zero) with x by (rewrite app_nth2 by lia; rewrite Hll, Nat.sub_diag; reflexivity).
      apply (entry_ext (g_perm st)); [intros k Hk; symmetry; apply Hold; exact Hk|].
      assert (Hnth : forall j, j < N -> nth_error (g_ds st) j = Some (nth j (g_ds st) zero)) by (intros j Hj; apply nth_error_nth'; lia).
      split; [exact Hp|]. split; [|split; [|split]].
      * intros k Hk. rewrite <- Hxp. apply (Hmin p Hp). exact Hk.
      * destruct (Hmin p Hp) as [[k [Hk E]] _]. exists k. split; [exact Hk|]. rewrite <- Hxp. exact E.
      * intros j Hj. destruct (Hmin j Hj) as [[k [Hk E]] _]. exists k. split; [exact Hk|]. rewrite <- E. apply (Hmax j). apply Hnth. exact Hj.
      * intros j Hj. destruct (Hmin j ltac:(lia)) as [[k [Hk E]] _]. exists k. split; [exact Hk|]. rewrite <- E.
        pose proof (Hfirst j _ Hj (Hnth j ltac:(lia))) as L. split; [apply lt_le; exact L|apply lt_neq; exact L].
    + destruct (Hent i ltac:(lia)) as [q [Eq Hq]]. exists q. split; [rewrite nth_error_app1 by lia; exact Eq|].
      rewrite (app_nth1 (g_lambdas st)) by lia.
      apply (entry_ext (g_perm st)); [intros k Hk; symmetry; apply Hold; lia|exact Hq].
Qed.
Lemma inv_loop l : forall m st, Inv m st -> exists st', for_in l (fun (_ : nat) st => greedy_step ltb row st) st = Ok st' /\ Inv (m + length l) st'.
Proof.
  induction l as [|a l IH]; intros m st H.
  - exists st. cbn. rewrite Nat.add_0_r. auto.
  - destruct (inv_step m st H) as [st1 [E H1]]. destruct (IH (S m) st1 H1) as [st2 [E2 H2]].
    exists st2. cbn [for_in]. rewrite E. cbn [bind]. split; [exact E2|]. cbn [length]. replace (m + S (length l)) with (S m + length l) by lia. exact H2.
Qed.
Lemma greedy_loop_ok M : 1 <= M -> exists st, greedy_loop ltb zero row M (r 0) = Ok st /\ Inv M st.
Proof.
  intros HM. unfold greedy_loop. destruct (inv_loop (range 1 M) 1 _ inv_init) as [st [E H]]. exists st. split; [exact E|].
  unfold range in H. rewrite seq_length in H. replace (1 + (M - 1)) with M in H by lia. exact H.
Qed.
Lemma inv_greedy M st : Inv M st -> greedy_permutation le N M d (g_perm st) (fun i => nth i (g_lambdas st) zero).
Proof. intros [_ [Hl [_ [H0 [_ [_ [_ [_ [_ H]]]]]]]]]. split; [exact Hl|]. split; [exact H0|exact H]. Qed.
End Loop.
End Greedy.

(** * The two orders *)
Lemma greedy_le_ext {A} (le1 le2 : A -> A -> Prop) N M d perm lam : (forall a b, le1 a b -> le2 a b) ->
  greedy_permutation le1 N M d perm lam -> greedy_permutation le2 N M d perm lam.
Proof.
  intros Hle [H1 [H2 H3]]. split; [exact H1|]. split; [exact H2|]. intros i Hi.
  destruct (H3 i Hi) as [p [Ep [A1 [A2 [A3 [A4 A5]]]]]]. exists p. split; [exact Ep|]. split; [exact A1|].
  split; [intros k Hk; apply Hle; apply A2; exact Hk|]. split; [exact A3|]. split.
  - intros j Hj. destruct (A4 j Hj) as [k [Hk H]]. exists k. auto.
  - intros j Hj. destruct (A5 j Hj) as [k [Hk [Ha Hb]]]. exists k. auto.
Qed.
Lemma Rltb_irr a : Rltb a a = false.
Proof. apply Rltb_false. apply Rle_refl. Qed.
Lemma Rltb_trans a b c : Rltb a b = true -> Rltb b c = true -> Rltb a c = true.
Proof. rewrite !Rltb_true. apply Rlt_trans. Qed.
Lemma Rltb_total a b : Rltb a b = false -> Rltb b a = false -> a = b.
Proof. rewrite !Rltb_false. intros. apply Rle_antisym; assumption. Qed.
Lemma le_R a b : le Rltb a b -> (a <= b)%R.
Proof. unfold le. rewrite Rltb_false. auto. Qed.
Lemma ext_irr a : ext_ltb a a = false.
Proof. destruct a; cbn; [apply Rltb_irr|reflexivity]. Qed.
Lemma ext_trans a b c : ext_ltb a b = true -> ext_ltb b c = true -> ext_ltb a c = true.
Proof. destruct a, b, c; cbn; try discriminate; try reflexivity. apply Rltb_trans. Qed.
Lemma ext_total a b : ext_ltb a b = false -> ext_ltb b a = false -> a = b.
Proof. destruct a, b; cbn; try discriminate; try reflexivity. intros. f_equal. apply Rltb_total; assumption. Qed.
Lemma le_ext a b : le ext_ltb a b -> ext_le a b.
Proof. unfold le. destruct a, b; cbn; auto; try discriminate. rewrite Rltb_false. auto. Qed.

(** * Pigeonhole *)
Lemma dup_or_nodup (l : list nat) : NoDup l \/ exists i j, i < j < length l /\ nth i l 0 = nth j l 0.
Proof.
  induction l as [|a l [IH|[i [j [Hij E]]]]]; [left; constructor| |].
  - destruct (in_dec Nat.eq_dec a l) as [Hin|Hn].
    + right. destruct (In_nth l a 0 Hin) as [j [Hj E]]. exists 0, (S j). cbn. split; [lia|]. symmetry. exact E.
    + left. constructor; assumption.
  - right. exists (S i), (S j). cbn. split; [lia|exact E].
Qed.
Lemma pigeonhole M K (P : nat -> nat -> Prop) : K < M -> (forall i, i < M -> exists c, c < K /\ P i c) ->
  exists i j c, i < j < M /\ c < K /\ P i c /\ P j c.
Proof.
  intros HK H.
  assert (C : forall m, m <= M -> exists l, length l = m /\ forall i, i < m -> nth i l 0 < K /\ P i (nth i l 0)).
  { induction m as [|m IH]; intros Hm.
    - exists []. split; [reflexivity|]. intros; lia.
    - destruct IH as [l [Hl Hc]]; [lia|]. destruct (H m) as [c [Hck Hp]]; [lia|]. exists (l ++ [c]).
      split; [rewrite app_length; cbn; lia|]. intros i Hi. destruct (Nat.eq_dec i m) as [->|Hne].
      + rewrite app_nth2 by lia. rewrite Hl, Nat.sub_diag. auto.
      + rewrite app_nth1 by lia. apply Hc. lia. }
  destruct (C M (Nat.le_refl M)) as [l [Hl Hc]]. destruct (dup_or_nodup l) as [Hnd|[i [j [Hij E]]]].
  - exfalso. assert (Hincl : incl l (seq 0 K)).
    { intros x Hx. destruct (In_nth l x 0 Hx) as [i [Hi <-]]. apply in_seq. destruct (Hc i); [lia|]. lia. }
    pose proof (NoDup_incl_length Hnd Hincl) as L. rewrite seq_length in L. lia.
  - exists i, j, (nth i l 0). destruct (Hc i) as [A1 A2]; [lia|]. destruct (Hc j) as [B1 B2]; [lia|].
    rewrite Hl in Hij. split; [exact Hij|]. split; [exact A1|]. split; [exact A2|]. rewrite E. exact B2.
Qed.

(** * Consequences for real distances *)
Section RealGreedy.
Variables (N M : nat) (d : nat -> nat -> R) (perm : list nat) (lam : nat -> R).
Hypothesis G : greedy_permutation Rle N M d perm lam.
Lemma nth_perm i p : nth_error perm i = Some p -> nth i perm 0 = p.
Proof. apply nth_error_nth. Qed.
Lemma perm_lt i : 1 <= N -> i < M -> nth i perm 0 < N.
Proof.
  intros HN Hi. destruct G as [Hl [H0 H]]. destruct i as [|i]; [rewrite (nth_perm _ _ H0); exact HN|].
  destruct (H (S i)) as [p [E [Hp _]]]; [lia|]. rewrite (nth_perm _ _ E). exact Hp.
Qed.
Lemma radii_decrease i j : 1 <= i -> i <= j -> j < M -> (lam j <= lam i)%R.
Proof.
  intros Hi Hij Hj. destruct (Nat.eq_dec i j) as [->|Hne]; [apply Rle_refl|]. destruct G as [Hl [H0 H]].
  destruct (H i) as [p [E [_ [_ [_ [Hc _]]]]]]; [lia|]. destruct (H j) as [p' [E' [Hp' [Hlow _]]]]; [lia|].
  destruct (Hc p' Hp') as [k [Hk Hd]]. eapply Rle_trans; [apply (Hlow k); lia|exact Hd].
Qed.
Lemma radii_packed i j : i < j -> j < M -> (lam j <= d (nth i perm 0%nat) (nth j perm 0%nat))%R.
Proof.
  intros Hij Hj. destruct G as [Hl [H0 H]]. destruct (H j) as [p [E [_ [Hlow _]]]]; [lia|]. rewrite (nth_perm _ _ E). apply Hlow. exact Hij.
Qed.
Lemma radii_covered i j : 1 <= i < M -> j < N -> exists k, k < i /\ (d (nth k perm 0%nat) j <= lam i)%R.
Proof. intros Hi Hj. destruct G as [Hl [H0 H]]. destruct (H i Hi) as [p [E [_ [_ [_ [Hc _]]]]]]. apply Hc. exact Hj. Qed.
Lemma distinct_landmarks : M <= N -> (forall i, i < N -> d i i = 0%R) ->
  (forall i j, i < N -> j < N -> i <> j -> (0 < d i j)%R) -> NoDup perm.
Proof.
  intros HMN Hd0 Hdp. destruct (dup_or_nodup perm) as [H|[i [j [Hij E]]]]; [exact H|exfalso].
  pose proof G as [Hl [H0 _]]. rewrite Hl in Hij.
  pose proof (radii_packed i j) as Hp. rewrite <- E in Hp.
  rewrite Hd0 in Hp by (apply perm_lt; lia). specialize (Hp (proj1 Hij) (proj2 Hij)).
  destruct (pigeonhole N j (fun x k => nth k perm 0 = x)) as [a [b [c [Hab [Hc [E1 E2]]]]]]; [lia| |lia].
  intros x Hx. destruct (radii_covered j x) as [k [Hk Hd]]; [lia|exact Hx|]. exists k. split; [exact Hk|].
  destruct (Nat.eq_dec (nth k perm 0) x) as [Eq|Hne]; [exact Eq|exfalso].
  assert (Hk2 : nth k perm 0 < N) by (apply perm_lt; lia).
  pose proof (Hdp _ _ Hk2 Hx Hne). lra.
Qed.
Lemma two_approximation (centres : list nat) rho : pseudometric N d -> length centres < M -> 1 <= N ->
  Forall (fun c => c < N) centres -> (forall j, j < N -> exists c, In c centres /\ (d c j <= rho)%R) ->
  (lam (M - 1) <= 2 * rho)%R.
Proof.
  intros [_ [Hsym Htri]] Hc HN Hin Hcov. rewrite Forall_forall in Hin.
  destruct (pigeonhole M (length centres) (fun i c => (d (nth c centres 0%nat) (nth i perm 0%nat) <= rho)%R)) as [i [j [c [Hij [Hcl [A B]]]]]].
  - exact Hc.
  - intros i Hi. destruct (Hcov (nth i perm 0%nat)) as [c [Hcin Hd]]; [apply perm_lt; lia|].
    destruct (In_nth centres c 0%nat Hcin) as [k [Hk E]]. exists k. rewrite E. auto.
  - assert (Hcc : nth c centres 0%nat < N) by (apply Hin; apply nth_In; exact Hcl).
    assert (Hpi : nth i perm 0%nat < N) by (apply perm_lt; lia). assert (Hpj : nth j perm 0%nat < N) by (apply perm_lt; lia).
    pose proof (radii_decrease j (M - 1) ltac:(lia) ltac:(lia) ltac:(lia)) as L1.
    pose proof (radii_packed i j ltac:(lia) ltac:(lia)) as L2.
    pose proof (Htri _ _ _ Hpi Hcc Hpj) as T. pose proof (proj2 (Hsym _ _ Hcc Hpi)) as S. lra.
Qed.
End RealGreedy.

(** * Graph distances *)
Section Walks.
Variable g : list (nat * nat * R).
Hypothesis Hnn : forall i j w, In (i, j, w) g -> (0 <= w)%R.
Lemma linked_sym i j w : linked g i j w -> linked g j i w.
Proof. intros [H|H]; [right|left]; exact H. Qed.
Lemma walk_nonneg i j r : walk (linked g) i j r -> (0 <= r)%R.
Proof. induction 1 as [|i j k w r [H|H] _ IH]; [apply Rle_refl| |]; apply Hnn in H; lra. Qed.
Lemma walk_app i j k r s : walk (linked g) i j r -> walk (linked g) j k s -> walk (linked g) i k (r + s).
Proof.
  intros H. revert k s. induction H as [i|i j k w r Hl Hw IH]; intros k' s Hs.
  - rewrite Rplus_0_l. exact Hs.
  - rewrite Rplus_assoc. apply (walk_on (linked g) i j k' w (r + s) Hl). apply IH. exact Hs.
Qed.
Lemma walk_rev i j r : walk (linked g) i j r -> walk (linked g) j i r.
Proof.
  induction 1 as [i|i j k w r Hl Hw IH]; [constructor|].
  rewrite Rplus_comm. apply (walk_app k j i r w IH). rewrite <- (Rplus_0_r w). apply (walk_on (linked g) j i i w 0 (linked_sym _ _ _ Hl)). constructor.
Qed.
Variables (n : nat) (sp : nat -> list ext).
Hypothesis Hsp : forall i, i < n -> shortest_row n (linked g) i (sp i).
Definition dist (i j : nat) : ext := nth j (sp i) None.
Lemma zero_iff i j : i < n -> j < n -> (dist i j = Some 0%R <-> walk (linked g) i j 0).
Proof.
  intros Hi Hj. destruct (Hsp i Hi) as [_ H]. specialize (H j Hj). unfold dist. destruct (nth j (sp i) None) as [r|]; split.
  - intros E. injection E as ->. apply H.
  - intros W. destruct H as [W' Hm]. pose proof (Hm _ W). pose proof (walk_nonneg _ _ _ W'). f_equal. lra.
  - discriminate.
  - intros W. exfalso. exact (H _ W).
Qed.
Lemma zero_refl i : i < n -> dist i i = Some 0%R.
Proof. intros Hi. apply zero_iff; [exact Hi|exact Hi|constructor]. Qed.
Lemma zero_sym i j : i < n -> j < n -> dist i j = Some 0%R -> dist j i = Some 0%R.
Proof. intros Hi Hj. rewrite !zero_iff by assumption. apply walk_rev. Qed.
Lemma zero_trans i j k : i < n -> j < n -> k < n -> dist i j = Some 0%R -> dist j k = Some 0%R -> dist i k = Some 0%R.
Proof. intros Hi Hj Hk. rewrite !zero_iff by assumption. intros A B. rewrite <- (Rplus_0_r 0). exact (walk_app _ _ _ _ _ A B). Qed.
Lemma dist_nonneg i j : i < n -> j < n -> ext_le (Some 0%R) (dist i j).
Proof.
  intros Hi Hj. destruct (Hsp i Hi) as [_ H]. specialize (H j Hj). unfold dist. destruct (nth j (sp i) None); [|exact I].
  apply (walk_nonneg i j). apply H.
Qed.
Lemma ext_antisym a b : ext_le a b -> ext_le b a -> a = b.
Proof. destruct a, b; cbn; try tauto. intros. f_equal. apply Rle_antisym; assumption. Qed.

Variables (L : nat) (perm : list nat) (lam : nat -> ext).
Hypothesis G : greedy_permutation ext_le n L dist perm lam.
Hypothesis Hn : 1 <= n.
Lemma eperm_lt i : i < L -> nth i perm 0 < n.
Proof.
  intros Hi. destruct G as [Hl [H0 H]]. destruct i as [|i]; [rewrite (nth_error_nth _ _ _ H0); exact Hn|].
  destruct (H (S i)) as [p [E [Hp _]]]; [lia|]. rewrite (nth_error_nth _ _ _ E). exact Hp.
Qed.
Lemma zero_radius i : 1 <= i < L -> lam i = Some 0%R -> nth i perm 0 = 0 /\ forall j, j < n -> exists k, k < i /\ dist (nth k perm 0) j = Some 0%R.
Proof.
  intros Hi Hz. destruct G as [Hl [H0 H]]. destruct (H i Hi) as [p [E [Hp [_ [_ [Hc Hf]]]]]]. rewrite Hz in *. split.
  - rewrite (nth_error_nth _ _ _ E). destruct p as [|p]; [reflexivity|exfalso].
    destruct (Hf 0) as [k [Hk [A B]]]; [lia|]. apply B. apply ext_antisym; [exact A|]. apply dist_nonneg; [apply eperm_lt; lia|lia].
  - intros j Hj. destruct (Hc j Hj) as [k [Hk A]]. exists k. split; [exact Hk|]. apply ext_antisym; [exact A|].
    apply dist_nonneg; [apply eperm_lt; lia|exact Hj].
Qed.
Lemma nodup_radii : NoDup perm <-> forall i, 1 <= i < L -> lam i <> Some 0%R.
Proof.
  pose proof G as [Hl [H0 H]]. split.
  - intros Hnd i Hi Hz. destruct (zero_radius i Hi Hz) as [E _].
    assert (Hx : i = 0); [|lia]. apply (proj1 (NoDup_nth perm 0) Hnd); [lia|lia|]. rewrite E, (nth_error_nth _ _ _ H0). reflexivity.
  - intros Hr. destruct (dup_or_nodup perm) as [Hnd|[i [j [Hij E]]]]; [exact Hnd|exfalso]. rewrite Hl in Hij.
    destruct (H j) as [p [Ep [_ [Hlow [[k [Hk Hlam]] _]]]]]; [lia|]. apply (Hr j); [lia|].
    pose proof (Hlow i (proj1 Hij)) as A. rewrite (nth_error_nth _ _ _ Ep) in E. rewrite E, zero_refl in A by (rewrite <- E; apply eperm_lt; lia).
    apply ext_antisym; [exact A|]. rewrite Hlam. apply dist_nonneg; [apply eperm_lt; lia|].
    rewrite <- E. apply eperm_lt; lia.
Qed.
Lemma nodup_iff_separated : NoDup perm <->
  exists q, length q = L /\ Forall (fun v => v < n) q /\
    forall i j, i < j < L -> dist (nth i q 0) (nth j q 0) <> Some 0%R.
Proof.
  pose proof G as [Hl [H0 H]]. split.
  - intros Hnd. exists perm. split; [exact Hl|]. split.
    + apply Forall_forall. intros x Hx. destruct (In_nth perm x 0 Hx) as [i [Hi <-]]. apply eperm_lt. lia.
    + intros i j Hij Hz. apply (proj1 nodup_radii Hnd j); [lia|]. destruct (H j) as [p [Ep [_ [Hlow [[k [Hk Hlam]] _]]]]]; [lia|].
      apply ext_antisym.
      * rewrite <- Hz, (nth_error_nth _ _ _ Ep). apply Hlow. lia.
      * rewrite Hlam. apply dist_nonneg; [apply eperm_lt; lia|]. rewrite <- (nth_error_nth _ _ 0 Ep). apply eperm_lt. lia.
  - intros [q [Hq [Hqn Hsep]]]. apply nodup_radii. intros i Hi Hz. destruct (zero_radius i Hi Hz) as [_ Hcov].
    rewrite Forall_forall in Hqn. assert (Hqi : forall a, a < L -> nth a q 0 < n) by (intros a Ha; apply Hqn; apply nth_In; lia).
    destruct (pigeonhole L i (fun a k => dist (nth k perm 0) (nth a q 0) = Some 0%R)) as [a [b [k [Hab [Hk [A B]]]]]]; [lia| |].
    + intros a Ha. apply Hcov. apply Hqi. exact Ha.
    + apply (Hsep a b Hab). apply (zero_trans _ (nth k perm 0)); try (apply Hqi; lia); try (apply eperm_lt; lia); [|exact B].
      apply zero_sym; [apply eperm_lt; lia|apply Hqi; lia|exact A].
Qed.
End Walks.

(** * Euclidean distances *)
Local Open Scope R_scope.
Lemma cs_inner n u v : inner n u v * inner n u v <= inner n u u * inner n v v.
Proof.
  set (a := inner n u u). set (b := inner n u v). set (c := inner n v v).
  assert (Hc : 0 <= c) by (apply sumn_nonneg; intros; nra).
  assert (Ha : 0 <= a) by (apply sumn_nonneg; intros; nra).
  assert (Hq : forall s t, 0 <= s * s * a + 2 * (s * t) * b + t * t * c).
  { intros s t. unfold a, b, c, inner. rewrite <- !sumn_scal, <- !sumn_add. apply sumn_nonneg. intros i Hi.
    replace (s * s * (nth i u 0 * nth i u 0) + 2 * (s * t) * (nth i u 0 * nth i v 0) + t * t * (nth i v 0 * nth i v 0))
      with ((s * nth i u 0 + t * nth i v 0) * (s * nth i u 0 + t * nth i v 0)) by ring. apply Rle_0_sqr. }
  destruct (Req_dec c 0) as [Z|Z].
  - assert (Zb : b = 0); [|rewrite Zb, Z; lra].
    destruct (Req_dec b 0) as [E|E]; [exact E|exfalso]. pose proof (Hq 1 (- (a + 1) / (2 * b))) as H. rewrite Z in H.
    replace (1 * 1 * a + 2 * (1 * (- (a + 1) / (2 * b))) * b + - (a + 1) / (2 * b) * (- (a + 1) / (2 * b)) * 0) with (-1) in H by (field; exact E). lra.
  - pose proof (Hq c (- b)) as H. assert (0 <= c * (c * a - b * b)) by lra.
    assert (0 <= c * a - b * b); [|lra]. apply (Rmult_le_reg_l c); lra.
Qed.
Lemma cs_abs n u v : Rabs (inner n u v) <= sqrt (inner n u u) * sqrt (inner n v v).
Proof.
  rewrite <- sqrt_mult by (apply sumn_nonneg; intros; nra). rewrite <- sqrt_Rsqr_abs. apply sqrt_le_1_alt. apply cs_inner.
Qed.
Definition diff (x y : list R) : list R := vsub x y.
Lemma euclid_inner d x y : length x = d -> length y = d -> euclid d x y = sqrt (inner d (vsub x y) (vsub x y)).
Proof.
  intros Hx Hy. unfold euclid, inner. f_equal. apply sumn_ext. intros i Hi. rewrite nth_vsub by congruence. ring.
Qed.
Lemma csm_entry_euclid d x y : length x = d -> length y = d -> csm_entry x y = euclid d x y.
Proof.
  intros Hx Hy. unfold csm_entry, euclid. rewrite !(vdot_inner d) by assumption.
  assert (E : inner d x x + inner d y y - 2 * inner d x y = sumn d (fun i => (nth i x 0 - nth i y 0) ^ 2)).
  { unfold inner. rewrite <- sumn_scal, <- sumn_add, <- sumn_sub. apply sumn_ext. intros i Hi. ring. }
  rewrite E. destruct (Rltb _ 0) eqn:T; [|reflexivity]. apply Rltb_true in T.
  assert (0 <= sumn d (fun i => (nth i x 0 - nth i y 0) ^ 2)) by (apply sumn_nonneg; intros; apply pow2_ge_0). lra.
Qed.
Lemma euclid_nonneg d x y : 0 <= euclid d x y. Proof. apply sqrt_pos. Qed.
Lemma euclid_sym d x y : euclid d x y = euclid d y x.
Proof. unfold euclid. f_equal. apply sumn_ext. intros i Hi. ring. Qed.
Lemma euclid_zero d x y : length x = d -> length y = d -> (euclid d x y = 0 <-> x = y).
Proof.
  intros Hx Hy. unfold euclid. assert (Hp : forall i, (i < d)%nat -> 0 <= (nth i x 0 - nth i y 0) ^ 2) by (intros; apply pow2_ge_0). split.
  - intros E. apply sqrt_eq_0 in E; [|apply sumn_nonneg; exact Hp].
    apply (nth_ext x y 0 0); [congruence|]. intros i Hi. pose proof (sumn_zero_all d _ Hp E i ltac:(lia)) as Z. cbn beta in Z. nra.
  - intros ->. rewrite sumn_0; [apply sqrt_0|]. intros; ring.
Qed.
Lemma euclid_triangle d x y z : length x = d -> length y = d -> length z = d -> euclid d x z <= euclid d x y + euclid d y z.
Proof.
  intros Hx Hy Hz. pose proof (euclid_nonneg d x y) as P1. pose proof (euclid_nonneg d y z) as P2.
  set (u := vsub x y). set (v := vsub y z).
  pose proof (cs_abs d u v) as CS. pose proof (Rle_abs (inner d u v)) as A.
  assert (E1 : euclid d x y = sqrt (inner d u u)) by (apply euclid_inner; assumption).
  assert (E2 : euclid d y z = sqrt (inner d v v)) by (apply euclid_inner; assumption).
  rewrite <- E1, <- E2 in CS.
  assert (S1 : euclid d x y * euclid d x y = inner d u u) by (rewrite E1; apply sqrt_sqrt; apply sumn_nonneg; intros; nra).
  assert (S2 : euclid d y z * euclid d y z = inner d v v) by (rewrite E2; apply sqrt_sqrt; apply sumn_nonneg; intros; nra).
  rewrite <- (sqrt_square (euclid d x y + euclid d y z)) by lra. unfold euclid at 1. apply sqrt_le_1_alt.
  replace (sumn d (fun i => (nth i x 0 - nth i z 0) ^ 2)) with (inner d u u + 2 * inner d u v + inner d v v); [nra|].
  unfold inner. rewrite <- sumn_scal, <- !sumn_add. apply sumn_ext. intros i Hi. unfold u, v. rewrite !nth_vsub by congruence. ring.
Qed.

(** * Projective arc length *)
Definition unit_len (d : nat) (x : list R) : Prop := length x = d /\ inner d x x = 1.
Lemma unit_inner_le d x y : unit_len d x -> unit_len d y -> Rabs (inner d x y) <= 1.
Proof. intros [_ Hx] [_ Hy]. pose proof (cs_abs d x y) as H. rewrite Hx, Hy, sqrt_1 in H. lra. Qed.
Lemma projarc_value d x y : unit_len d x -> unit_len d y -> projarc_entry x y = acos (Rabs (inner d x y)).
Proof.
  intros Hx Hy. pose proof (unit_inner_le d x y Hx Hy) as H1. unfold projarc_entry. rewrite (vdot_inner d) by (apply Hx || apply Hy).
  set (D := Rabs (inner d x y)) in *. pose proof (Rabs_pos (inner d x y)) as H0. fold D in H0.
  destruct (Rltb D (-1)) eqn:E; [apply Rltb_true in E; lra|]. destruct (Rltb 1 D) eqn:E2; [apply Rltb_true in E2; lra|].
  rewrite Rabs_pos_eq by exact H0. reflexivity.
Qed.
Lemma acos_decr a b : -1 <= a -> a <= b -> b <= 1 -> acos b <= acos a.
Proof.
  intros Ha Hab Hb. destruct (Rle_lt_dec (acos b) (acos a)) as [H|H]; [exact H|exfalso].
  pose proof (acos_bound a) as Ba. pose proof (acos_bound b) as Bb.
  pose proof (cos_decreasing_1 (acos a) (acos b)) as K. rewrite !cos_acos in K by lra. lra.
Qed.
Lemma acos_half a : 0 <= a <= 1 -> 0 <= acos a <= PI / 2.
Proof.
  intros Ha. split; [apply acos_bound|]. rewrite <- acos_0. apply acos_decr; lra.
Qed.
Lemma projarc_angle_triangle d x y z : unit_len d x -> unit_len d y -> unit_len d z ->
  acos (Rabs (inner d x z)) <= acos (Rabs (inner d x y)) + acos (Rabs (inner d y z)).
Proof.
  intros Hx Hy Hz. set (p := inner d x y). set (q := inner d y z). set (w := inner d x z).
  assert (Hp : Rabs p <= 1) by (apply unit_inner_le; assumption). assert (Hq : Rabs q <= 1) by (apply unit_inner_le; assumption).
  assert (Hw : Rabs w <= 1) by (apply unit_inner_le; assumption).
  pose proof (Rabs_pos p) as P0. pose proof (Rabs_pos q) as Q0. pose proof (Rabs_pos w) as W0.
  pose proof (acos_half (Rabs p) ltac:(lra)) as Ap. pose proof (acos_half (Rabs q) ltac:(lra)) as Aq.
  set (s := acos (Rabs p) + acos (Rabs q)).
  assert (Hs : 0 <= s <= PI) by (unfold s; lra).
  rewrite <- (acos_cos s Hs). apply acos_decr; [apply COS_bound| |exact Hw].
  unfold s. rewrite cos_plus, !cos_acos, !sin_acos by lra.
  (* x' = x - p y and z' = z - q y *)
  set (x' := vsub x (vscale p y)). set (z' := vsub z (vscale q y)).
  destruct Hx as [Lx Ux], Hy as [Ly Uy], Hz as [Lz Uz].
  assert (Nx : forall i, nth i x' 0 = nth i x 0 - p * nth i y 0) by (intros i; unfold x'; rewrite nth_vsub, nth_vscale by (rewrite vscale_length; congruence); reflexivity).
  assert (Nz : forall i, nth i z' 0 = nth i z 0 - q * nth i y 0) by (intros i; unfold z'; rewrite nth_vsub, nth_vscale by (rewrite vscale_length; congruence); reflexivity).
  assert (Exx : inner d x' x' = 1 - p * p).
  { transitivity (inner d x x - 2 * p * inner d x y + p * p * inner d y y).
    - unfold inner. rewrite <- !sumn_scal, <- sumn_sub, <- sumn_add. apply sumn_ext. intros i Hi. rewrite Nx. ring.
    - rewrite Ux, Uy. fold p. ring. }
  assert (Ezz : inner d z' z' = 1 - q * q).
  { transitivity (inner d z z - 2 * q * inner d y z + q * q * inner d y y).
    - unfold inner. rewrite <- !sumn_scal, <- sumn_sub, <- sumn_add. apply sumn_ext. intros i Hi. rewrite Nz. ring.
    - rewrite Uz, Uy. fold q. ring. }
  assert (Exz : inner d x' z' = w - p * q).
  { transitivity (inner d x z - q * inner d x y - p * inner d y z + p * q * inner d y y).
    - unfold inner. rewrite <- !sumn_scal, <- !sumn_sub, <- sumn_add. apply sumn_ext. intros i Hi. rewrite Nx, Nz. ring.
    - rewrite Uy. fold p q w. ring. }
  pose proof (cs_abs d x' z') as CS. rewrite Exx, Ezz, Exz in CS.
  replace (1 - (Rabs p)²) with (1 - p * p) by (rewrite <- Rsqr_abs; reflexivity).
  replace (1 - (Rabs q)²) with (1 - q * q) by (rewrite <- Rsqr_abs; reflexivity).
  rewrite <- Rabs_mult.
  pose proof (Rabs_triang_inv (p * q) w) as T. rewrite Rabs_minus_sym in T. lra.
Qed.
Lemma acos_zero a : 0 <= a <= 1 -> acos a = 0 -> a = 1.
Proof. intros Ha E. rewrite <- (cos_acos a) by lra. rewrite E. apply cos_0. Qed.
Lemma unit_inner_one d x y : unit_len d x -> unit_len d y -> inner d x y = 1 -> x = y.
Proof.
  intros [Lx Ux] [Ly Uy] E. apply (euclid_zero d); [exact Lx|exact Ly|]. unfold euclid.
  replace (sumn d (fun i => (nth i x 0 - nth i y 0) ^ 2)) with 0; [apply sqrt_0|].
  transitivity (inner d x x + inner d y y - 2 * inner d x y); [rewrite Ux, Uy, E; ring|].
  unfold inner. rewrite <- sumn_scal, <- sumn_add, <- sumn_sub. apply sumn_ext. intros i Hi. ring.
Qed.
