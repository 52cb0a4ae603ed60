(** PropDelta.v -- properties C10-C17 (coboundary matrices, cocycle tests). *)
From Coq Require Import Sorted Ring Ring_theory.
From Verif Require Import Base BaseProofs CombinatorialModel SpecSimplex CombinatorialProofs
  DeltaModel SpecRips RipsProofs DeltaProofs DeltaFacts.

Section Statements.
Context {D : Type} (ltD : D -> D -> bool).

(** C10: delta0 never leaves its buffers or its shape (every out-of-range access in the
    model is an error result) and is f_i - f_j on Rips edges, 0 elsewhere.  [junk] is the
    content of np.empty; [K] any commutative ring of coefficients. *)
Theorem C10_delta0 :
  forall (dm : list (list D)) t N Dm, square dm -> length dm <= N -> 1 <= Dm ->
  (Z.of_nat (length dm) <= 65536)%Z ->
  let table := combinatorial_number_system_table N Dm in
  exists M, (forall junk, make_delta0 ltD junk dm t table = Ok M) /\
    forall (K : ring) (f : list K), length f = length dm ->
    exists g, matvec M f = Ok g /\ is_binomial (length dm) 2 (length g) /\
      forall i j x y, i < j < length dm -> nth_error f i = Some x -> nth_error f j = Some y ->
        (close ltD dm t i j -> value_at table g [i; j] (rsub x y)) /\
        (~ close ltD dm t i j -> value_at table g [i; j] r0).
Proof.
  intros dm t N Dm Hsq HN HD Hn table; eexists; split.
  - intros junk; apply delta0_ok; auto using edges_fit.
  - intros K f Lf.
    destruct (delta0_apply ltD dm t N Dm HN K _ f eq_refl HD Lf) as (g & E & Lg & H).
    exists g; split; [exact E|split; [rewrite Lg; apply comb_is_binomial|exact H]].
Qed.

(** C11: delta1. *)
Theorem C11_delta1 :
  forall (dm : list (list D)) t N Dm, square dm -> length dm <= N -> 2 <= Dm ->
  (Z.of_nat (length dm) <= 2345)%Z ->
  let table := combinatorial_number_system_table N Dm in
  exists M, (forall junk, make_delta1 ltD junk dm t table = Ok M) /\
    forall (K : ring) (g : list K), is_binomial (length dm) 2 (length g) ->
    exists h, matvec M g = Ok h /\ is_binomial (length dm) 3 (length h) /\
      forall i j k a b e, simplex (length dm) 2 [i; j; k] ->
        value_at table g [i; j] a -> value_at table g [j; k] b -> value_at table g [i; k] e ->
        (rips ltD dm t 2 [i; j; k] -> value_at table h [i; j; k] (rsub (radd a b) e)) /\
        (~ rips ltD dm t 2 [i; j; k] -> value_at table h [i; j; k] r0).
Proof.
  intros dm t N Dm Hsq HN HD Hn table; eexists; split.
  - intros junk; apply delta1_ok; auto using tri_fit.
  - intros K g Lg; apply is_binomial_comb in Lg.
    destruct (delta1_apply ltD dm t N Dm HN K _ g eq_refl HD Lg) as (h & E & Lh & H).
    exists h; split; [exact E|split; [rewrite Lh; apply comb_is_binomial|exact H]].
Qed.

(** C12: delta1_compact: [tris] lists the Rips triangles, each once, in lexicographic
    order; row [r] is the coboundary at triangle number [r]. *)
Theorem C12_delta1_compact :
  forall (dm : list (list D)) t N Dm, square dm -> length dm <= N -> 2 <= Dm ->
  (Z.of_nat (length dm) <= 2345)%Z ->
  let table := combinatorial_number_system_table N Dm in
  exists M tris, (forall junk, make_delta1_compact ltD junk dm t table = Ok M) /\
    StronglySorted lex_lt tris /\ (forall s, In s tris <-> rips ltD dm t 2 s) /\
    forall (K : ring) (g : list K), is_binomial (length dm) 2 (length g) ->
    exists w, matvec M g = Ok w /\ length w = length tris /\
      forall r i j k a b e, nth_error tris r = Some [i; j; k] ->
        value_at table g [i; j] a -> value_at table g [j; k] b -> value_at table g [i; k] e ->
        nth_error w r = Some (rsub (radd a b) e).
Proof.
  intros dm t N Dm Hsq HN HD Hn table; eexists; exists (rl ltD dm t 2); split; [|split; [|split]].
  - intros junk; apply delta1_compact_ok; auto using tri_fit.
  - apply rlist_sorted.
  - intros s; apply rl_rips.
  - intros K g Lg; apply is_binomial_comb in Lg.
    exact (delta1_compact_apply ltD dm t N Dm HN K _ g eq_refl HD Lg).
Qed.

(** C12: the compact matrix vanishes exactly on the 1-cocycles. *)
Theorem C12_kernel_is_cocycles :
  forall (dm : list (list D)) t N Dm, square dm -> length dm <= N -> 2 <= Dm ->
  (Z.of_nat (length dm) <= 2345)%Z ->
  let table := combinatorial_number_system_table N Dm in
  forall junk M (c : list Z), make_delta1_compact ltD junk dm t table = Ok M ->
  is_binomial (length dm) 2 (length c) ->
  exists w, matvec (K := Zring) M c = Ok w /\
    (Forall (fun x => x = 0%Z) w <-> one_cocycle ltD dm t table c).
Proof.
  intros dm t N Dm Hsq HN HD Hn table junk M c E Lc.
  destruct (C12_delta1_compact dm t N Dm Hsq HN HD Hn) as (M' & tris & HM & _ & HT & HK).
  fold table in HM, HK; rewrite HM in E; apply Ok_inj in E; subst M'.
  destruct (HK Zring c Lc) as (w & Ew & Lw & Hw); exists w; split; [exact Ew|].
  apply is_binomial_comb in Lc; unfold one_cocycle; split.
  - intros F i j k a b e Hr Ha Hb He.
    apply HT in Hr; apply In_nth_error in Hr; destruct Hr as [r Hr].
    specialize (Hw r i j k a b e Hr Ha Hb He); cbn [rsub radd Zring] in Hw.
    rewrite Forall_forall in F; apply F; eapply nth_error_In; exact Hw.
  - intros H; apply Forall_forall; intros x Hx; apply In_nth_error in Hx; destruct Hx as [r Hx].
    assert (R : r < length tris) by (rewrite <- Lw; exact (some_lt _ _ _ Hx)).
    destruct (nth_error tris r) as [s|] eqn:Es; [|apply nth_error_None in Es; lia].
    assert (Hr : rips ltD dm t 2 s) by (apply HT; eapply nth_error_In; exact Es).
    pose proof Hr as [Hs _]; pose proof Hs as (L & _ & _).
    destruct s as [|i [|j [|k [|? ?]]]]; try discriminate L.
    destruct (tri_faces _ i j k Hs) as (S1 & S2 & S3).
    destruct (value_exists dm N Dm HN c 1 [i; j]) as [a Ha]; [lia|exact S1|exact Lc|].
    destruct (value_exists dm N Dm HN c 1 [j; k]) as [b Hb]; [lia|exact S2|exact Lc|].
    destruct (value_exists dm N Dm HN c 1 [i; k]) as [e He]; [lia|exact S3|exact Lc|].
    specialize (Hw r i j k a b e Es Ha Hb He); cbn [rsub radd Zring carrier] in Hw.
    specialize (H i j k a b e Hr Ha Hb He).
    pose proof (eq_trans (eq_sym Hx) Hw) as Q; injection Q as ->; exact H.
Qed.

(** C13: delta2_compact. *)
Theorem C13_delta2_compact :
  forall (dm : list (list D)) t N Dm, square dm -> length dm <= N -> 3 <= Dm ->
  (Z.of_nat (length dm) <= 2345)%Z ->
  (forall L, NoDup L -> (forall s, In s L -> rips ltD dm t 3 s) -> (Z.of_nat (length L) <= 2 ^ 31)%Z) ->
  let table := combinatorial_number_system_table N Dm in
  exists M tets, (forall junk, make_delta2_compact ltD junk dm t table = Ok M) /\
    StronglySorted lex_lt tets /\ (forall s, In s tets <-> rips ltD dm t 3 s) /\
    forall (K : ring) (c : list K), is_binomial (length dm) 3 (length c) ->
    exists w, matvec M c = Ok w /\ length w = length tets /\
      forall r i j k l a b e f, nth_error tets r = Some [i; j; k; l] ->
        value_at table c [i; j; k] a -> value_at table c [i; j; l] b ->
        value_at table c [i; k; l] e -> value_at table c [j; k; l] f ->
        nth_error w r = Some (rsub (radd (rsub a b) e) f).
Proof.
  intros dm t N Dm Hsq HN HD Hn Hl table; eexists; exists (rl ltD dm t 3); split; [|split; [|split]].
  - intros junk; apply delta2_compact_ok; auto using tri_fit.
    apply Hl; [apply rlist_NoDup|]. intros s Hs; apply rl_rips; assumption.
  - apply rlist_sorted.
  - intros s; apply rl_rips.
  - intros K c Lc; apply is_binomial_comb in Lc.
    exact (delta2_compact_apply ltD dm t N Dm HN K _ c eq_refl HD Lc).
Qed.

Theorem C13_kernel_is_cocycles :
  forall (dm : list (list D)) t N Dm, square dm -> length dm <= N -> 3 <= Dm ->
  (Z.of_nat (length dm) <= 2345)%Z ->
  (forall L, NoDup L -> (forall s, In s L -> rips ltD dm t 3 s) -> (Z.of_nat (length L) <= 2 ^ 31)%Z) ->
  let table := combinatorial_number_system_table N Dm in
  forall junk M (c : list Z), make_delta2_compact ltD junk dm t table = Ok M ->
  is_binomial (length dm) 3 (length c) ->
  exists w, matvec (K := Zring) M c = Ok w /\
    (Forall (fun x => x = 0%Z) w <-> two_cocycle ltD dm t table c).
Proof.
  intros dm t N Dm Hsq HN HD Hn Hl table junk M c E Lc.
  destruct (C13_delta2_compact dm t N Dm Hsq HN HD Hn Hl) as (M' & tets & HM & _ & HT & HK).
  fold table in HM, HK; rewrite HM in E; apply Ok_inj in E; subst M'.
  destruct (HK Zring c Lc) as (w & Ew & Lw & Hw); exists w; split; [exact Ew|].
  apply is_binomial_comb in Lc; unfold two_cocycle; split.
  - intros F i j k l a b e f Hr Ha Hb He Hf.
    apply HT in Hr; apply In_nth_error in Hr; destruct Hr as [r Hr].
    specialize (Hw r i j k l a b e f Hr Ha Hb He Hf); cbn [rsub radd Zring] in Hw.
    rewrite Forall_forall in F; apply F; eapply nth_error_In; exact Hw.
  - intros H; apply Forall_forall; intros x Hx; apply In_nth_error in Hx; destruct Hx as [r Hx].
    assert (R : r < length tets) by (rewrite <- Lw; exact (some_lt _ _ _ Hx)).
    destruct (nth_error tets r) as [s|] eqn:Es; [|apply nth_error_None in Es; lia].
    assert (Hr : rips ltD dm t 3 s) by (apply HT; eapply nth_error_In; exact Es).
    pose proof Hr as [Hs _]; pose proof Hs as (L & _ & _).
    destruct s as [|i [|j [|k [|l [|? ?]]]]]; try discriminate L.
    destruct (tet_faces _ i j k l Hs) as (S1 & S2 & S3 & S4).
    destruct (value_exists dm N Dm HN c 2 [i; j; k]) as [a Ha]; [lia|exact S1|exact Lc|].
    destruct (value_exists dm N Dm HN c 2 [i; j; l]) as [b Hb]; [lia|exact S2|exact Lc|].
    destruct (value_exists dm N Dm HN c 2 [i; k; l]) as [e He]; [lia|exact S3|exact Lc|].
    destruct (value_exists dm N Dm HN c 2 [j; k; l]) as [f Hf]; [lia|exact S4|exact Lc|].
    specialize (Hw r i j k l a b e f Es Ha Hb He Hf); cbn [rsub radd Zring carrier] in Hw.
    specialize (H i j k l a b e f Hr Ha Hb He Hf).
    pose proof (eq_trans (eq_sym Hx) Hw) as Q; injection Q as ->; exact H.
Qed.

(** C14: delta1 (both forms) kills coboundaries of vertex functions. *)
Theorem C14_delta1_delta0 :
  forall (dm : list (list D)) t N Dm, square dm -> length dm <= N -> 2 <= Dm ->
  (Z.of_nat (length dm) <= 2345)%Z ->
  let table := combinatorial_number_system_table N Dm in
  forall junk M0 M1 M1c, make_delta0 ltD junk dm t table = Ok M0 ->
  make_delta1 ltD junk dm t table = Ok M1 -> make_delta1_compact ltD junk dm t table = Ok M1c ->
  forall (K : ring) (f : list K), length f = length dm ->
  exists g h w, matvec M0 f = Ok g /\ matvec M1 g = Ok h /\ matvec M1c g = Ok w /\
    Forall (fun x => x = r0) h /\ Forall (fun x => x = r0) w.
Proof.
  intros dm t N Dm Hsq HN HD Hn table junk M0 M1 M1c E0 E1 E2 K f Lf; subst table.
  rewrite (delta0_ok ltD junk dm t N Dm Hsq HN) in E0; [|lia|apply edges_fit; lia].
  rewrite (delta1_ok ltD junk dm t N Dm Hsq HN) in E1; [|lia|apply tri_fit; lia].
  rewrite (delta1_compact_ok ltD junk dm t N Dm Hsq HN) in E2; [|lia|apply tri_fit; lia].
  apply Ok_inj in E0, E1, E2; subst M0 M1 M1c.
  destruct (delta0_apply ltD dm t N Dm HN K _ f eq_refl ltac:(lia) Lf) as (g & Eg & Lg & Hg).
  destruct (delta1_apply ltD dm t N Dm HN K _ g eq_refl HD Lg) as (h & Eh & Lh & Hh).
  destruct (delta1_compact_apply ltD dm t N Dm HN K _ g eq_refl HD Lg) as (w & Ew & Lw & Hw).
  exists g, h, w; repeat (split; [assumption|]).
  assert (V : forall i j k, simplex (length dm) 2 [i; j; k] -> exists a b e,
     value_at (combinatorial_number_system_table N Dm) g [i; j] a /\
     value_at (combinatorial_number_system_table N Dm) g [j; k] b /\
     value_at (combinatorial_number_system_table N Dm) g [i; k] e).
  { intros i j k Hs; destruct (tri_faces _ i j k Hs) as (S1 & S2 & S3).
    destruct (value_exists dm N Dm HN g 1 [i; j]) as [a Ha]; [lia|exact S1|exact Lg|].
    destruct (value_exists dm N Dm HN g 1 [j; k]) as [b Hb]; [lia|exact S2|exact Lg|].
    destruct (value_exists dm N Dm HN g 1 [i; k]) as [e He]; [lia|exact S3|exact Lg|].
    exists a, b, e; auto. }
  split; apply Forall_forall; intros x Hx; apply In_nth_error in Hx; destruct Hx as [r Hx].
  - assert (R : r < comb (length dm) 3) by (rewrite <- Lh; exact (some_lt _ _ _ Hx)).
    destruct (simplex_of_number (length dm) 2 r R) as (s & Hs & Er).
    pose proof Hs as (L & _ & _); destruct s as [|i [|j [|k [|? ?]]]]; try discriminate L.
    destruct (V i j k Hs) as (a & b & e & Ha & Hb & He).
    destruct (Hh i j k a b e Hs Ha Hb He) as [H1 H2].
    assert (U : value_at (combinatorial_number_system_table N Dm) h [i; j; k] x).
    { apply (value_at_rank dm N Dm HN h 2); [exact HD|exact Hs|]. rewrite Er; exact Hx. }
    destruct (in_dec (list_eq_dec Nat.eq_dec) [i; j; k] (rl ltD dm t 2)) as [I|I];
      rewrite rl_rips in I.
    + rewrite (value_unique N Dm h _ _ _ U (H1 I)).
      apply (coboundary0_cancels ltD dm t N Dm HN K f g i j k); auto; lia.
    + apply (value_unique N Dm h _ _ _ U (H2 I)).
  - assert (R : r < length (rl ltD dm t 2)) by (rewrite <- Lw; exact (some_lt _ _ _ Hx)).
    destruct (nth_error (rl ltD dm t 2) r) as [s|] eqn:Es; [|apply nth_error_None in Es; lia].
    assert (Hr : rips ltD dm t 2 s) by (apply rl_rips; eapply nth_error_In; exact Es).
    pose proof Hr as [Hs _]; pose proof Hs as (L & _ & _); destruct s as [|i [|j [|k [|? ?]]]]; try discriminate L.
    destruct (V i j k Hs) as (a & b & e & Ha & Hb & He).
    rewrite (Hw r i j k a b e Es Ha Hb He) in Hx; injection Hx as <-.
    apply (coboundary0_cancels ltD dm t N Dm HN K f g i j k); auto; lia.
Qed.

(** C14: delta2_compact kills coboundaries of edge cochains. *)
Theorem C14_delta2_delta1 :
  forall (dm : list (list D)) t N Dm, square dm -> length dm <= N -> 3 <= Dm ->
  (Z.of_nat (length dm) <= 2345)%Z ->
  (forall L, NoDup L -> (forall s, In s L -> rips ltD dm t 3 s) -> (Z.of_nat (length L) <= 2 ^ 31)%Z) ->
  let table := combinatorial_number_system_table N Dm in
  forall junk M1 M2, make_delta1 ltD junk dm t table = Ok M1 ->
  make_delta2_compact ltD junk dm t table = Ok M2 ->
  forall (K : ring) (g : list K), is_binomial (length dm) 2 (length g) ->
  exists h w, matvec M1 g = Ok h /\ matvec M2 h = Ok w /\ Forall (fun x => x = r0) w.
Proof.
  intros dm t N Dm Hsq HN HD Hn Hl table junk M1 M2 E1 E2 K g Lg; subst table.
  apply is_binomial_comb in Lg.
  rewrite (delta1_ok ltD junk dm t N Dm Hsq HN) in E1; [|lia|apply tri_fit; lia].
  rewrite (delta2_compact_ok ltD junk dm t N Dm Hsq HN) in E2;
    [|lia|apply tri_fit; lia|apply Hl; [apply rlist_NoDup|intros s Hs; apply rl_rips; assumption]].
  apply Ok_inj in E1, E2; subst M1 M2.
  destruct (delta1_apply ltD dm t N Dm HN K _ g eq_refl ltac:(lia) Lg) as (h & Eh & Lh & Hh).
  destruct (delta2_compact_apply ltD dm t N Dm HN K _ h eq_refl HD Lh) as (w & Ew & Lw & Hw).
  exists h, w; split; [exact Eh|split; [exact Ew|]].
  apply Forall_forall; intros x Hx; apply In_nth_error in Hx; destruct Hx as [r Hx].
  assert (R : r < length (rl ltD dm t 3)) by (rewrite <- Lw; exact (some_lt _ _ _ Hx)).
  destruct (nth_error (rl ltD dm t 3) r) as [s|] eqn:Es; [|apply nth_error_None in Es; lia].
  assert (Hr : rips ltD dm t 3 s) by (apply rl_rips; eapply nth_error_In; exact Es).
  pose proof Hr as [Hs _]; pose proof Hs as (L & _ & _); destruct s as [|i [|j [|k [|l [|? ?]]]]]; try discriminate L.
  destruct (tet_faces _ i j k l Hs) as (S1 & S2 & S3 & S4).
  destruct (value_exists dm N Dm HN h 2 [i; j; k]) as [a Ha]; [lia|exact S1|exact Lh|].
  destruct (value_exists dm N Dm HN h 2 [i; j; l]) as [b Hb]; [lia|exact S2|exact Lh|].
  destruct (value_exists dm N Dm HN h 2 [i; k; l]) as [e He]; [lia|exact S3|exact Lh|].
  destruct (value_exists dm N Dm HN h 2 [j; k; l]) as [f Hf]; [lia|exact S4|exact Lh|].
  rewrite (Hw r i j k l a b e f Es Ha Hb He Hf) in Hx; injection Hx as <-.
  apply (coboundary1_cancels ltD dm t N Dm HN K g h i j k l); auto; lia.
Qed.

(** C15: the 1-cocycle test decides the cocycle condition without reading out of
    bounds, and agrees with the matrix. *)
Theorem C15_is_one_cocycle :
  forall (dm : list (list D)) t N Dm c, square dm -> length dm <= N -> 2 <= Dm ->
  is_binomial (length dm) 2 (length c) ->
  let table := combinatorial_number_system_table N Dm in
  exists answer first_failure, is_one_cocycle ltD c dm t table = Ok (answer, first_failure) /\
    (answer = true <-> one_cocycle ltD dm t table c) /\
    (first_failure = None <-> answer = true).
Proof.
  intros dm t N Dm c Hsq HN HD Lc table; apply is_binomial_comb in Lc.
  destruct (is_one_cocycle_loop ltD dm t N Dm Hsq HN c HD Lc) as (b & m & E & Hb & Hm).
  exists b, m; split; [exact E|split; [|exact Hm]].
  rewrite Hb; apply good3_spec; assumption.
Qed.

(** C15: [first_failure], when finite, is the length of the shortest side of a triangle on which
    the condition fails. *)
Theorem C15_first_failure :
  forall (dm : list (list D)) t N Dm c answer d, square dm -> length dm <= N -> 2 <= Dm ->
  is_binomial (length dm) 2 (length c) -> weak_order ltD ->
  let table := combinatorial_number_system_table N Dm in
  is_one_cocycle ltD c dm t table = Ok (answer, Some d) ->
  (exists i j k, failing ltD dm t table c i j k /\ side_length dm i j k d) /\
  (forall i j k d', failing ltD dm t table c i j k -> side_length dm i j k d' -> ltD d' d = false).
Proof.
  intros dm t N Dm c answer d Hsq HN HD Lc WO table E; apply is_binomial_comb in Lc.
  destruct (is_one_cocycle_first ltD dm t N Dm Hsq HN c answer d HD Lc WO E) as [(s & I1 & I2 & I3) H].
  split.
  - unfold sides in I3. destruct s as [|i [|j [|k [|? ?]]]]; try contradiction. exists i, j, k. split; [|exact I3].
    apply (good3_failing ltD dm t N Dm HN c i j k HD Lc); auto.
  - intros i j k d' Hf Hd. apply (good3_failing ltD dm t N Dm HN c i j k HD Lc) in Hf as [F1 F2]. exact (H [i; j; k] d' F1 F2 Hd).
Qed.

Theorem C15_agrees_with_matrix :
  forall (dm : list (list D)) t N Dm c, square dm -> length dm <= N -> 2 <= Dm ->
  (Z.of_nat (length dm) <= 2345)%Z -> is_binomial (length dm) 2 (length c) ->
  let table := combinatorial_number_system_table N Dm in
  forall junk M, make_delta1_compact ltD junk dm t table = Ok M ->
  exists answer ff w, is_one_cocycle ltD c dm t table = Ok (answer, ff) /\
    matvec (K := Zring) M c = Ok w /\ (answer = true <-> Forall (fun x => x = 0%Z) w).
Proof.
  intros dm t N Dm c Hsq HN HD Hn Lc table junk M E.
  destruct (C15_is_one_cocycle dm t N Dm c Hsq HN HD Lc) as (b & m & E1 & Hb & _).
  destruct (C12_kernel_is_cocycles dm t N Dm Hsq HN HD Hn junk M c E Lc) as (w & E2 & Hw).
  exists b, m, w; split; [exact E1|split; [exact E2|]]. rewrite Hw; exact Hb.
Qed.

(** C16: the 2-cocycle test. *)
Theorem C16_is_two_cocycle :
  forall (dm : list (list D)) t N Dm c, square dm -> length dm <= N -> 3 <= Dm ->
  is_binomial (length dm) 3 (length c) ->
  let table := combinatorial_number_system_table N Dm in
  exists answer, is_two_cocycle ltD c dm t table = Ok answer /\
    (answer = true <-> two_cocycle ltD dm t table c).
Proof.
  intros dm t N Dm c Hsq HN HD Lc table; apply is_binomial_comb in Lc.
  eexists; split; [apply is_two_cocycle_loop; assumption|apply good4_spec; assumption].
Qed.

Theorem C16_agrees_with_matrix :
  forall (dm : list (list D)) t N Dm c, square dm -> length dm <= N -> 3 <= Dm ->
  (Z.of_nat (length dm) <= 2345)%Z ->
  (forall L, NoDup L -> (forall s, In s L -> rips ltD dm t 3 s) -> (Z.of_nat (length L) <= 2 ^ 31)%Z) ->
  is_binomial (length dm) 3 (length c) ->
  let table := combinatorial_number_system_table N Dm in
  forall junk M, make_delta2_compact ltD junk dm t table = Ok M ->
  exists answer w, is_two_cocycle ltD c dm t table = Ok answer /\
    matvec (K := Zring) M c = Ok w /\ (answer = true <-> Forall (fun x => x = 0%Z) w).
Proof.
  intros dm t N Dm c Hsq HN HD Hn Hl Lc table junk M E.
  destruct (C16_is_two_cocycle dm t N Dm c Hsq HN HD Lc) as (b & E1 & Hb).
  destruct (C13_kernel_is_cocycles dm t N Dm Hsq HN HD Hn Hl junk M c E Lc) as (w & E2 & Hw).
  exists b, w; split; [exact E1|split; [exact E2|]]. rewrite Hw; exact Hb.
Qed.

(** C17: the inner product matrix selects the Rips edges; applying the second matrix
    twice is applying the first once. *)
Theorem C17_inner_product :
  forall (dm : list (list D)) t N Dm, square dm -> length dm <= N -> 1 <= Dm ->
  (Z.of_nat (length dm) <= 2 ^ 32)%Z ->
  let table := combinatorial_number_system_table N Dm in
  exists W WSqrt, (forall junk, make_inner_product ltD junk dm t table = Ok (W, WSqrt)) /\
    forall (K : ring) (g : list K), is_binomial (length dm) 2 (length g) ->
    exists h, matvec W g = Ok h /\ length h = length g /\
      (forall i j x, i < j < length dm -> value_at table g [i; j] x ->
        (close ltD dm t i j -> value_at table h [i; j] x) /\
        (~ close ltD dm t i j -> value_at table h [i; j] r0)) /\
      exists s, matvec WSqrt g = Ok s /\ matvec WSqrt s = Ok h.
Proof.
  intros dm t N Dm Hsq HN HD Hn table; eexists; eexists; split.
  - intros junk; apply inner_product_ok; try assumption. pose proof (comb_2 (length dm)); nia.
  - intros K g Lg; apply is_binomial_comb in Lg.
    destruct (inner_apply ltD dm t N Dm HN K _ g eq_refl HD Lg) as (h & E & Lh & H).
    exists h; split; [exact E|split; [congruence|split; [exact H|]]].
    exists h; split; [exact E|].
    destruct (inner_apply ltD dm t N Dm HN K _ h eq_refl HD Lh) as (h' & E' & Lh' & H').
    rewrite E'; f_equal. apply nth_error_ext_len; [congruence|]. intros r Hr; rewrite Lh' in Hr.
    destruct (simplex_of_number (length dm) 1 r Hr) as (s & Hs & <-).
    pose proof Hs as (L & _ & _); destruct s as [|i [|j [|? ?]]]; try discriminate L.
    pose proof Hs as Hij; apply simplex2 in Hij.
    destruct (value_exists dm N Dm HN g 1 [i; j]) as [x Hx]; [lia|exact Hs|exact Lg|].
    destruct (value_exists dm N Dm HN h 1 [i; j]) as [y Hy]; [lia|exact Hs|exact Lh|].
    pose proof (H i j x Hij Hx) as [H1 H2]; pose proof (H' i j y Hij Hy) as [H3 H4].
    pose proof Hy as Hy0; rewrite (value_at_rank dm N Dm HN h 1) in Hy0 by (assumption || lia); rewrite Hy0.
    destruct (in_dec (list_eq_dec Nat.eq_dec) [i; j] (rl ltD dm t 1)) as [I|I];
      rewrite (rips1 ltD dm t) in I by exact Hij.
    + specialize (H3 I); rewrite (value_at_rank dm N Dm HN h' 1) in H3 by (assumption || lia); exact H3.
    + specialize (H4 I); rewrite (value_at_rank dm N Dm HN h' 1) in H4 by (assumption || lia).
      rewrite H4; f_equal. apply (value_unique N Dm h _ _ _ (H2 I) Hy).
Qed.
End Statements.

Print Assumptions C10_delta0.
Print Assumptions C11_delta1.
Print Assumptions C12_delta1_compact.
Print Assumptions C12_kernel_is_cocycles.
Print Assumptions C13_delta2_compact.
Print Assumptions C13_kernel_is_cocycles.
Print Assumptions C14_delta1_delta0.
Print Assumptions C14_delta2_delta1.
Print Assumptions C15_is_one_cocycle.
Print Assumptions C15_first_failure.
Print Assumptions C15_agrees_with_matrix.
Print Assumptions C16_is_two_cocycle.
Print Assumptions C16_agrees_with_matrix.
Print Assumptions C17_inner_product.

(** Non-vacuity: four points, integer distances; at scale 3 the edge 0-3 is missing, so
    there are two triangles; at scale 9 there is one tetrahedron. *)
Definition ex_dm : list (list Z) :=
  [[0; 1; 2; 7]; [1; 0; 2; 1]; [2; 2; 0; 1]; [7; 1; 1; 0]]%Z.
Definition ex_T := combinatorial_number_system_table 4 3.

Example C10_17_hypotheses :
  square ex_dm /\ length ex_dm <= 4 /\ close Z.ltb ex_dm 3%Z 0 1 /\ ~ close Z.ltb ex_dm 3%Z 0 3 /\
  rips Z.ltb ex_dm 3%Z 2 [1; 2; 3] /\ ~ rips Z.ltb ex_dm 3%Z 2 [0; 1; 3] /\
  rips Z.ltb ex_dm 9%Z 3 [0; 1; 2; 3].
Proof.
  assert (C : forall t i j, closeb Z.ltb ex_dm t i j = true -> close Z.ltb ex_dm t i j) by (intros; apply closeb_close; assumption).
  repeat match goal with |- _ /\ _ => split end.
  - repeat constructor.
  - vm_compute; lia.
  - apply C; reflexivity.
  - intros H; apply closeb_close in H; discriminate H.
  - apply rl_rips; right; left; reflexivity.
  - intros H; apply rl_rips in H; vm_compute in H. destruct H as [H|[H|H]]; try discriminate H; exact H.
  - apply rl_rips; left; reflexivity.
Qed.

Example C10_example :
  (M <- make_delta0 Z.ltb (fun _ => 77%Z) ex_dm 3%Z ex_T ;; matvec (K := Zring) M [10; 7; 3; 1]%Z)
  = Ok [3; 7; 4; 0; 6; 2]%Z.
Proof. reflexivity. Qed.

Example C11_C12_example :
  (M <- make_delta1 Z.ltb (fun _ => 77%Z) ex_dm 3%Z ex_T ;; matvec (K := Zring) M [1; 2; 4; 8; 16; 32]%Z)
  = Ok [3; 0; 0; 20]%Z /\
  (M <- make_delta1_compact Z.ltb (fun _ => 77%Z) ex_dm 3%Z ex_T ;; matvec (K := Zring) M [1; 2; 4; 8; 16; 32]%Z)
  = Ok [3; 20]%Z.
Proof. split; reflexivity. Qed.

Example C13_example :
  (M <- make_delta2_compact Z.ltb (fun _ => 77%Z) ex_dm 9%Z ex_T ;; matvec (K := Zring) M [1; 2; 4; 8]%Z)
  = Ok [-5]%Z.
Proof. reflexivity. Qed.

Example C15_C16_example :
  is_one_cocycle Z.ltb [1; 3; 2; 9; 5; 3]%Z ex_dm 3%Z ex_T = Ok (true, None) /\
  is_one_cocycle Z.ltb [1; 3; 2; 9; 4; 3]%Z ex_dm 3%Z ex_T = Ok (false, Some 1%Z) /\
  is_two_cocycle Z.ltb [1; 2; 4; 3]%Z ex_dm 9%Z ex_T = Ok true /\
  is_two_cocycle Z.ltb [1; 2; 4; 8]%Z ex_dm 9%Z ex_T = Ok false.
Proof. repeat split; reflexivity. Qed.

Example C15_first_failure_hypotheses : weak_order Z.ltb /\ failing Z.ltb ex_dm 3%Z ex_T [1; 3; 2; 9; 4; 3]%Z 1 2 3 /\ side_length ex_dm 1 2 3 1%Z.
Proof.
  split; [|split].
  - split; intros; rewrite ?Z.ltb_lt, ?Z.ltb_ge in *; lia.
  - split; [apply rl_rips; right; left; reflexivity|]. exists 2%Z, 3%Z, 4%Z. split; [exists 2; split; reflexivity|]. split; [exists 5; split; reflexivity|]. split; [exists 4; split; reflexivity|lia].
  - exists 1, 3. eexists. split; [right; right; left; reflexivity|]. split; reflexivity.
Qed.

Example C17_example :
  (WW <- make_inner_product Z.ltb (fun _ => 77%Z) ex_dm 3%Z ex_T ;; matvec (K := Zring) (fst WW) [1; 2; 4; 8; 16; 32]%Z)
  = Ok [1; 2; 4; 0; 16; 32]%Z.
Proof. reflexivity. Qed.
