(** CohomologyProofs.v -- order_simplex, sparse_cocycle_to_vector, lift, reindex. *)
From Coq Require Import Permutation Sorted.
From Verif Require Import Base BaseProofs CombinatorialModel SpecSimplex CombinatorialProofs
  CohomologyModel SpecCohomology SignProofs ParityProofs.

(** ** order_simplex *)
Lemma map_res_get {A} (l : list A) d p : Forall (fun i => i < length l) p ->
  map_res (get IndexError l) p = Ok (map (fun i => nth i l d) p).
Proof.
  intros F; apply map_res_ok; intros i Hi; apply get_ok.
  rewrite Forall_forall in F; apply F; exact Hi.
Qed.

Lemma perm_seq_lt n p : Permutation p (seq 0 n) -> Forall (fun i => i < n) p.
Proof.
  intros H; apply Forall_forall; intros i Hi.
  apply (Permutation_in _ H), in_seq in Hi; lia.
Qed.

Lemma perm_reorder {A} (l : list A) d p : Permutation p (seq 0 (length l)) ->
  Permutation (map (fun i => nth i l d) p) l.
Proof.
  intros H; apply perm_trans with (map (fun i => nth i l d) (seq 0 (length l))).
  - apply Permutation_map; exact H.
  - rewrite map_nth_seq; reflexivity.
Qed.

Lemma sorted_le_lt (l : list Z) : NoDup l -> StronglySorted Z.le l -> StronglySorted Z.lt l.
Proof.
  induction 2 as [|x l S1 IH F]; constructor; inversion H as [|? ? N1 N2]; subst; [apply IH; exact N2|].
  rewrite Forall_forall in *; intros y Hy; specialize (F y Hy).
  assert (x <> y) by (intros ->; apply N1; exact Hy); lia.
Qed.

Lemma order_simplex_ok argsort l : NoDup l -> is_argsort Z.le 0%Z l (argsort l) ->
  exists s, order_simplex argsort l = Ok (s, orientation l) /\
    StronglySorted Z.lt s /\ Permutation s l.
Proof.
  intros N A; destruct A as [Hp S1]; unfold order_simplex.
  rewrite (parity_orientation _ _ Hp), (orientation_argsort l (argsort l) N (conj Hp S1)).
  cbn [bind]; rewrite (map_res_get l 0%Z _ (perm_seq_lt _ _ Hp)); cbn [bind].
  eexists; split; [reflexivity|].
  pose proof (perm_reorder l 0%Z _ Hp) as P; split; [|exact P].
  apply sorted_le_lt; [|exact S1].
  apply (Permutation_NoDup (Permutation_sym P)); exact N.
Qed.

(** ** sparse_cocycle_to_vector *)
Lemma sorted_perm_unique {A} (lt : A -> A -> Prop) :
  (forall x y, lt x y -> lt y x -> False) ->
  forall l l', Permutation l l' -> StronglySorted lt l -> StronglySorted lt l' -> l = l'.
Proof.
  intros As; induction l as [|x l IH]; intros l' P S1 S2.
  - apply Permutation_nil in P; subst; reflexivity.
  - destruct l' as [|y l']; [symmetry in P; apply Permutation_nil in P; discriminate P|].
    apply StronglySorted_inv in S1; destruct S1 as [S1 F1].
    apply StronglySorted_inv in S2; destruct S2 as [S2 F2].
    rewrite Forall_forall in F1, F2.
    assert (x = y).
    { assert (Hx : In x (y :: l')) by (apply (Permutation_in _ P); left; reflexivity).
      assert (Hy : In y (x :: l)) by (apply (Permutation_in _ (Permutation_sym P)); left; reflexivity).
      destruct Hx as [Hx|Hx]; [congruence|]; destruct Hy as [Hy|Hy]; [congruence|].
      exfalso; apply (As x y); auto. }
    subst y; f_equal; apply IH; try assumption; apply Permutation_cons_inv with x; exact P.
Qed.

Lemma map_res_vertex_index l : Forall (fun v => (0 <= v)%Z) l ->
  map_res vertex_index l = Ok (map Z.to_nat l).
Proof.
  intros F; apply map_res_ok; intros v Hv; rewrite Forall_forall in F; specialize (F v Hv).
  unfold vertex_index; rewrite (proj2 (Z.leb_le _ _) F); reflexivity.
Qed.

Lemma sorted_to_nat (s : list Z) : StronglySorted Z.lt s -> Forall (fun v => (0 <= v)%Z) s ->
  StronglySorted lt (map Z.to_nat s).
Proof.
  induction 1 as [|x l S1 IH F]; intros P; cbn [map]; constructor; inversion P; subst; [apply IH; assumption|].
  apply Forall_map; rewrite Forall_forall in *; intros y Hy; specialize (F y Hy); lia.
Qed.

Lemma sorted_of_nat (s : list nat) : StronglySorted lt s -> StronglySorted Z.lt (map Z.of_nat s).
Proof.
  induction 1 as [|x l S1 IH F]; cbn [map]; constructor; [exact IH|].
  apply Forall_map; rewrite Forall_forall in *; intros y Hy; specialize (F y Hy); lia.
Qed.

Definition good_row (n d : nat) (row : list Z * Z) : Prop :=
  length (fst row) = S d /\ NoDup (fst row) /\
  Forall (fun v => (0 <= v < Z.of_nat n)%Z) (fst row).

(** The simplex a row names. *)
Lemma row_simplex argsort n d row N D : good_row n d row -> n <= N -> d <= D ->
  (forall l, is_argsort Z.le 0%Z l (argsort l)) ->
  exists s, simplex n d s /\ Permutation (map Z.of_nat s) (fst row) /\
    (os <- order_simplex argsort (fst row) ;;
     vs <- map_res vertex_index (fst os) ;;
     k <- combinatorial_number_system_forward vs (combinatorial_number_system_table N D) ;;
     Ok (k, snd os)) = Ok (rank s, orientation (fst row)).
Proof.
  intros (L & ND & F) HN HD A.
  destruct (order_simplex_ok argsort (fst row) ND (A _)) as (z & E & S1 & P).
  assert (Fz : Forall (fun v => (0 <= v < Z.of_nat n)%Z) z).
  { rewrite Forall_forall in *; intros v Hv; apply F, (Permutation_in _ P), Hv. }
  assert (Fz0 : Forall (fun v => (0 <= v)%Z) z).
  { apply Forall_impl with (2 := Fz); intros; lia. }
  assert (Sx : simplex n d (map Z.to_nat z)).
  { repeat split.
    - rewrite map_length, (Permutation_length P); exact L.
    - apply sorted_to_nat; assumption.
    - apply Forall_map, Forall_impl with (2 := Fz); intros; lia. }
  exists (map Z.to_nat z); split; [exact Sx|split].
  - rewrite map_map, (map_ext_in _ (fun v => v)), map_id; [exact P|].
    intros v Hv; rewrite Forall_forall in Fz0; specialize (Fz0 v Hv); lia.
  - rewrite E; cbn [bind fst snd]; rewrite map_res_vertex_index by exact Fz0; cbn [bind].
    rewrite (forward_ok N D n d) by assumption; reflexivity.
Qed.

Lemma simplex_perm_eq s t : StronglySorted lt s -> StronglySorted lt t ->
  Permutation (map Z.of_nat s) (map Z.of_nat t) -> s = t.
Proof.
  intros Ss St P.
  assert (E : map Z.of_nat s = map Z.of_nat t).
  { apply (sorted_perm_unique Z.lt); try assumption; try (apply sorted_of_nat; assumption).
    intros; lia. }
  assert (G : forall l, map Z.to_nat (map Z.of_nat l) = l).
  { intros l; rewrite map_map, (map_ext _ (fun v => v)), map_id; [reflexivity|]. intros; lia. }
  rewrite <- (G s), <- (G t), E; reflexivity.
Qed.

Theorem sparse_to_vector_ok argsort n d c N D :
  n <= N -> d <= D -> c_dim c = d -> Forall (good_row n d) (c_rows c) ->
  (forall l, is_argsort Z.le 0%Z l (argsort l)) ->
  exists vec,
    sparse_cocycle_to_vector argsort c (combinatorial_number_system_table N D) n = Ok vec /\
    length vec = comb n (S d) /\
    (forall s, simplex n d s ->
       (forall pre vs v post, c_rows c = pre ++ (vs, v) :: post ->
          Permutation (map Z.of_nat s) vs ->
          (forall row, In row post -> ~ Permutation (map Z.of_nat s) (fst row)) ->
          nth_error vec (rank s) = Some (v * orientation vs)%Z) /\
       ((forall row, In row (c_rows c) -> ~ Permutation (map Z.of_nat s) (fst row)) ->
          nth_error vec (rank s) = Some 0%Z)).
Proof.
  intros HN HD Hd F A; unfold sparse_cocycle_to_vector; rewrite Hd.
  rewrite number_of_simplices_ok by assumption; cbn [bind].
  replace (d + 1) with (S d) by lia.
  match goal with |- context [for_in _ ?b _] => set (body := b) end.
  set (I := fun (pre : list (list Z * Z)) (vec : list Z) =>
    length vec = comb n (S d) /\
    (forall s, simplex n d s ->
       (forall pre1 vs v post, pre = pre1 ++ (vs, v) :: post ->
          Permutation (map Z.of_nat s) vs ->
          (forall row, In row post -> ~ Permutation (map Z.of_nat s) (fst row)) ->
          nth_error vec (rank s) = Some (v * orientation vs)%Z) /\
       ((forall row, In row pre -> ~ Permutation (map Z.of_nat s) (fst row)) ->
          nth_error vec (rank s) = Some 0%Z))).
  assert (RL : forall s, simplex n d s -> rank s < comb n (S d)).
  { intros s (Ls & Ss & Fs); rewrite <- Ls; apply rank_lt; assumption. }
  destruct (for_in_inv (c_rows c) body I (repeat 0%Z (comb n (S d)))) as (vec & E & HI).
  - split; [apply repeat_length|]. intros s Hs; split.
    + intros [|? ?] ? ? ? E; discriminate E.
    + intros _; apply nth_error_repeat, RL, Hs.
  - intros pre row post vec Er [HL HI].
    assert (Gr : good_row n d row).
    { rewrite Forall_forall in F; apply F; rewrite Er; apply in_or_app; right; left; reflexivity. }
    destruct (row_simplex argsort n d row N D Gr HN HD A) as (s0 & Hs0 & P0 & E0).
    unfold body.
    destruct (order_simplex argsort (fst row)) as [os|]; cbn [bind] in *; [|discriminate E0].
    destruct (map_res vertex_index (fst os)) as [vs0|]; cbn [bind] in *; [|discriminate E0].
    destruct (combinatorial_number_system_forward vs0 _) as [k|]; cbn [bind] in *; [|discriminate E0].
    apply Ok_inj in E0; injection E0 as Ek Eo; rewrite Ek, Eo.
    assert (Hk : rank s0 < length vec) by (rewrite HL; apply RL, Hs0).
    destruct (set_at_ok IndexError vec (rank s0) (snd row * orientation (fst row))%Z Hk)
      as (vec' & E' & L' & N1 & N2 & _).
    exists vec'; split; [exact E'|]. split; [lia|].
    intros s Hs. destruct (HI s Hs) as [H1 H2].
    assert (Dec : s = s0 \/ rank s <> rank s0).
    { destruct (list_eq_dec Nat.eq_dec s s0) as [e|ne]; [left; exact e|right].
      intros R; apply ne; destruct Hs as (a1 & a2 & _), Hs0 as (b1 & b2 & _).
      apply rank_inj; congruence. }
    split.
    + intros pre1 vs v post1 Ep Pv Hpost.
      destruct Dec as [->|Nr].
      * (* the new row names s: it must be the last one *)
        destruct post1 as [|r post1] using rev_ind.
        -- apply app_inj_tail in Ep; destruct Ep as [_ ->]; exact N1.
        -- rewrite app_comm_cons, app_assoc in Ep; apply app_inj_tail in Ep; destruct Ep as [_ <-].
           exfalso; apply (Hpost row); [apply in_or_app; right; left; reflexivity|].
           exact P0.
      * rewrite N2 by exact Nr.
        destruct post1 as [|r post1] using rev_ind.
        -- apply app_inj_tail in Ep; destruct Ep as [_ ->]; cbn [fst] in P0.
           exfalso; apply Nr; f_equal; apply simplex_perm_eq.
           ++ apply Hs.
           ++ apply Hs0.
           ++ rewrite Pv, P0; reflexivity.
        -- rewrite app_comm_cons, app_assoc in Ep; apply app_inj_tail in Ep; destruct Ep as [Ep _].
           eapply H1; [exact Ep|exact Pv|].
           intros r' Hr'; apply Hpost; apply in_or_app; left; exact Hr'.
    + intros Hno; destruct Dec as [->|Nr].
      * exfalso; apply (Hno row); [apply in_or_app; right; left; reflexivity|exact P0].
      * rewrite N2 by exact Nr; apply H2; intros r Hr; apply Hno, in_or_app; left; exact Hr.
  - exists vec; split; [exact E|exact HI].
Qed.

(** ** lift_to_integer_cocycle *)
Lemma lift_value_spec p v : (2 <= p)%Z -> (0 <= v < p)%Z ->
  let w := lift_value p v in
  (exists q, w - v = q * p)%Z /\ (- p <= 2 * w < p)%Z /\
  (forall w', (exists q, w' - v = q * p)%Z -> (- p <= 2 * w' < p)%Z -> w' = w) /\
  (forall w', (exists q, w' - v = q * p)%Z -> (Z.abs w <= Z.abs w')%Z) /\
  (w = 0 <-> v = 0)%Z /\ lift_value p w = w.
Proof.
  intros Hp Hv; unfold lift_value; cbv zeta.
  destruct (Z.ltb_spec (p - 1) (2 * v)) as [H|H].
  - repeat split; try lia.
    + exists (-1)%Z; lia.
    + intros w' [q Hq] R. assert (q = -1)%Z by nia. lia.
    + intros w' [q Hq]. assert (q <= -1 \/ 0 <= q)%Z as [G|G] by lia; nia.
    + destruct (Z.ltb_spec (p - 1) (2 * (v - p))); lia.
  - repeat split; try lia.
    + exists 0%Z; lia.
    + intros w' [q Hq] R. assert (q = 0)%Z by nia. lia.
    + intros w' [q Hq]. assert (q <= -1 \/ 0 <= q)%Z as [G|G] by lia; nia.
    + destruct (Z.ltb_spec (p - 1) (2 * v)); lia.
Qed.

Lemma lift_lift p c : (2 <= p)%Z -> Forall (fun row => (0 <= snd row < p)%Z) (c_rows c) ->
  lift_to_integer_cocycle p (lift_to_integer_cocycle p c) = lift_to_integer_cocycle p c.
Proof.
  intros Hp F; unfold lift_to_integer_cocycle; cbn [c_dim c_rows]; f_equal.
  rewrite map_map; apply map_ext_in; intros row Hr; cbn [fst snd]; f_equal.
  rewrite Forall_forall in F; apply lift_value_spec; auto.
Qed.

(** ** reindex_cocycles *)
Lemma np_get_ok {A} (l : list A) i d : (0 <= i < Z.of_nat (length l))%Z ->
  np_get l i = Ok (nth (Z.to_nat i) l d).
Proof.
  intros H; unfold np_get.
  rewrite (proj2 (Z.leb_le 0 i)), (proj2 (Z.ltb_lt i _)) by lia; cbn [andb].
  apply get_ok; lia.
Qed.

Lemma np_set_ok {A} (l : list A) i x : (0 <= i < Z.of_nat (length l))%Z ->
  np_set l i x = set_at IndexError l (Z.to_nat i) x.
Proof.
  intros H; unfold np_set.
  rewrite (proj2 (Z.leb_le 0 i)), (proj2 (Z.ltb_lt i _)) by lia; reflexivity.
Qed.

Lemma idx_map_ok idx N : NoDup idx -> Forall (fun v => (0 <= v < Z.of_nat N)%Z) idx ->
  exists m, make_idx_map idx N = Ok m /\ length m = N /\
    (forall k v, nth_error idx k = Some v -> nth_error m (Z.to_nat v) = Some (Z.of_nat k)) /\
    (forall v, (0 <= v < Z.of_nat N)%Z -> ~ In v idx -> nth_error m (Z.to_nat v) = Some (-1)%Z).
Proof.
  intros ND F; unfold make_idx_map; rewrite range_0.
  set (l := combine idx (map Z.of_nat (seq 0 (length idx)))).
  assert (Ll : length l = length idx).
  { unfold l; rewrite combine_length, map_length, seq_length; lia. }
  assert (Nl : forall k p, nth_error l k = Some p -> nth_error idx k = Some (fst p) /\ snd p = Z.of_nat k).
  { unfold l; intros k p E.
    assert (Hk : k < length idx) by (rewrite <- Ll; apply nth_error_Some; unfold l; congruence).
    rewrite (nth_error_nth' _ (0%Z, 0%Z)) in E by (fold l; lia).
    rewrite combine_nth in E by (rewrite map_length, seq_length; reflexivity).
    injection E as <-; cbn [fst snd]; split; [apply nth_error_nth'; exact Hk|].
    erewrite (nth_error_nth (map Z.of_nat (seq 0 (length idx)))) by (apply nth_error_map_seq; exact Hk).
    reflexivity. }
  match goal with |- context [for_in l ?b _] => set (body := b) end.
  set (I := fun (pre : list (Z * Z)) (m : list Z) => length m = N /\
    (forall k v, k < length pre -> nth_error idx k = Some v -> nth_error m (Z.to_nat v) = Some (Z.of_nat k)) /\
    (forall v, (0 <= v < Z.of_nat N)%Z -> ~ In v (firstn (length pre) idx) -> nth_error m (Z.to_nat v) = Some (-1)%Z)).
  destruct (for_in_inv l body I (repeat (-1)%Z N)) as (m & E & HL & H1 & H2).
  - split; [apply repeat_length|split].
    + cbn [length]; intros; lia.
    + intros v Hv _; apply nth_error_repeat; lia.
  - intros pre x post m El (HL & H1 & H2).
    assert (Ex : nth_error l (length pre) = Some x).
    { rewrite El, nth_error_app2, Nat.sub_diag by lia; reflexivity. }
    destruct (Nl _ _ Ex) as [Ei Es].
    assert (Hx : (0 <= fst x < Z.of_nat N)%Z).
    { rewrite Forall_forall in F; apply F; eapply nth_error_In; exact Ei. }
    unfold body; rewrite np_set_ok by lia.
    destruct (set_at_ok IndexError m (Z.to_nat (fst x)) (snd x)) as (m' & E' & L' & N1 & N2 & _); [lia|].
    exists m'; split; [exact E'|].
    assert (Lp : length (pre ++ [x]) = S (length pre)) by (rewrite app_length; cbn [length]; lia).
    split; [lia|]; split.
    + rewrite Lp; intros k v Hk Hv. destruct (Nat.eq_dec k (length pre)) as [->|Nk].
      * assert (v = fst x) by congruence; subst v; rewrite N1, Es; reflexivity.
      * rewrite N2; [apply H1; [lia|exact Hv]|].
        intros Eq; assert (Hv' : (0 <= v < Z.of_nat N)%Z).
        { rewrite Forall_forall in F; apply F; eapply nth_error_In; exact Hv. }
        assert (v = fst x) by lia; subst v; apply Nk.
        apply (proj1 (NoDup_nth_error idx) ND); [apply nth_error_Some; congruence|congruence].
    + rewrite Lp; intros v Hv Hn.
      assert (Ef : firstn (S (length pre)) idx = firstn (length pre) idx ++ [fst x]).
      { clear - Ei. revert Ei. generalize (length pre); intros k; revert idx.
        induction k as [|k IH]; intros [|y idx] Ei; cbn in *; try discriminate.
        - injection Ei as ->; reflexivity.
        - f_equal; apply IH; exact Ei. }
      rewrite Ef in Hn.
      rewrite N2; [apply H2; [exact Hv|]|].
      * intros Hi; apply Hn, in_or_app; left; exact Hi.
      * intros Eq; apply Hn, in_or_app; right; left; lia.
  - exists m; split; [exact E|split; [exact HL|split]].
    + intros k v Hk; apply H1; [|exact Hk]; rewrite Ll; apply nth_error_Some; congruence.
    + intros v Hv Hn; apply H2; [exact Hv|]; rewrite Ll, firstn_all; exact Hn.
Qed.

Lemma map_res_map {A B C} (f : B -> res C) (g : A -> B) l :
  map_res f (map g l) = map_res (fun x => f (g x)) l.
Proof. induction l as [|x l IH]; cbn [map map_res]; [reflexivity|]; rewrite IH; reflexivity. Qed.

Lemma map_res_id {A} (f : A -> res A) l : (forall x, In x l -> f x = Ok x) -> map_res f l = Ok l.
Proof. intros H; rewrite (map_res_ok f (fun x => x)), map_id by exact H; reflexivity. Qed.

(** Writing landmark labels: the inverse operation, used to state C09. *)
Definition relabel_vertex (idx : list Z) (v : Z) : Z := nth (Z.to_nat v) idx (-1)%Z.
Definition relabel (idx : list Z) (c : cocycle) : cocycle :=
  mkCocycle (c_dim c) (map (fun row => (map (relabel_vertex idx) (fst row), snd row)) (c_rows c)).

Theorem reindex_relabel idx N cs : NoDup idx -> Forall (fun v => (0 <= v < Z.of_nat N)%Z) idx ->
  (forall ck c row v, In ck cs -> In c ck -> In row (c_rows c) -> In v (fst row) ->
     (0 <= v < Z.of_nat (length idx))%Z) ->
  reindex_cocycles (map (map (relabel idx)) cs) idx N = Ok cs.
Proof.
  intros ND F H; unfold reindex_cocycles.
  destruct (idx_map_ok idx N ND F) as (m & -> & Lm & Hm & _); cbn [bind].
  rewrite map_res_map; apply map_res_id; intros ck Hck.
  rewrite map_res_map; apply map_res_id; intros c Hc.
  unfold reindex_cocycle, relabel; cbn [c_rows c_dim]; rewrite map_res_map.
  rewrite map_res_id.
  - destruct c; reflexivity.
  - intros row Hrow; cbn [fst snd]; rewrite map_res_map, map_res_id; [destruct row; reflexivity|].
    intros v Hv; specialize (H ck c row v Hck Hc Hrow Hv); unfold relabel_vertex.
    assert (E : nth_error idx (Z.to_nat v) = Some (nth (Z.to_nat v) idx (-1)%Z))
      by (apply nth_error_nth'; lia).
    pose proof (Hm _ _ E) as E'.
    assert (R : (0 <= nth (Z.to_nat v) idx (-1) < Z.of_nat N)%Z).
    { rewrite Forall_forall in F; apply F, nth_In; lia. }
    rewrite (np_get_ok m _ 0%Z) by lia.
    rewrite (nth_error_nth _ _ _ E'), Z2Nat.id by lia; reflexivity.
Qed.

(** A vertex that is not a landmark becomes -1; one outside [-N, N) is an IndexError. *)
Theorem reindex_vertex idx N m v : NoDup idx -> Forall (fun v => (0 <= v < Z.of_nat N)%Z) idx ->
  make_idx_map idx N = Ok m ->
  ((0 <= v < Z.of_nat N)%Z -> ~ In v idx -> np_get m v = Ok (-1)%Z) /\
  ((Z.of_nat N <= v)%Z -> np_get m v = Raise IndexError).
Proof.
  intros ND F E; destruct (idx_map_ok idx N ND F) as (m' & E' & Lm & _ & Hn).
  rewrite E in E'; apply Ok_inj in E'; subst m'; split.
  - intros Hv Hi; rewrite (np_get_ok m v 0%Z) by lia; f_equal.
    apply nth_error_nth, Hn; assumption.
  - intros Hv; unfold np_get.
    destruct (Z.leb_spec 0 v), (Z.ltb_spec v (Z.of_nat (length m))),
      (Z.leb_spec (- Z.of_nat (length m)) v), (Z.ltb_spec v 0); cbn [andb]; try reflexivity; lia.
Qed.
