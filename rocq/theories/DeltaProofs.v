(** DeltaProofs.v -- buffers, sparse matrices and the coboundary matrices. *)
From Coq Require Import Sorted Ring Ring_theory.
From Verif Require Import Base BaseProofs CombinatorialModel SpecSimplex CombinatorialProofs
  DeltaModel SpecRips RipsProofs.

(** ** Buffers *)
Definition entries_of (b : buffers) : list (Z * Z * Z) :=
  combine (combine (firstn (b_n b) (b_rows b)) (firstn (b_n b) (b_cols b))) (firstn (b_n b) (b_vals b)).

Definition buf_ok (cap : nat) (b : buffers) : Prop :=
  length (b_rows b) = cap /\ length (b_cols b) = cap /\ length (b_vals b) = cap /\ b_n b <= cap.

Lemma set_at_firstn {A} err (l l' : list A) i x : set_at err l i x = Ok l' ->
  firstn (i + 1) l' = firstn i l ++ [x].
Proof.
  unfold set_at; destruct (Nat.ltb_spec i (length l)) as [H|H]; [|discriminate].
  intros E; apply Ok_inj in E; subst l'.
  assert (L : length (firstn i l) = i) by (rewrite firstn_length; lia).
  rewrite firstn_app, L; replace (i + 1 - i) with 1 by lia; cbn [firstn].
  rewrite firstn_all2 by lia; reflexivity.
Qed.

Lemma combine_snoc {A B} (l : list A) (l' : list B) x y : length l = length l' ->
  combine (l ++ [x]) (l' ++ [y]) = combine l l' ++ [(x, y)].
Proof.
  revert l'; induction l as [|a l IH]; intros [|b l'] H; cbn in *; try lia; [reflexivity|].
  f_equal; apply IH; lia.
Qed.

Lemma emit_ok wrap cap b r c v : buf_ok cap b -> b_n b < cap ->
  exists b', emit wrap r c v b = Ok b' /\ buf_ok cap b' /\ b_n b' = b_n b + 1 /\
    entries_of b' = entries_of b ++ [(wrap (Z.of_nat r), wrap (Z.of_nat c), v)].
Proof.
  intros (L1 & L2 & L3 & Ln) H; unfold emit.
  destruct (set_at_ok MemoryUnsafe (b_rows b) (b_n b) (wrap (Z.of_nat r))) as (l1 & E1 & K1 & _); [lia|].
  destruct (set_at_ok MemoryUnsafe (b_cols b) (b_n b) (wrap (Z.of_nat c))) as (l2 & E2 & K2 & _); [lia|].
  destruct (set_at_ok MemoryUnsafe (b_vals b) (b_n b) v) as (l3 & E3 & K3 & _); [lia|].
  rewrite E1; cbn [bind]; rewrite E2; cbn [bind]; rewrite E3; cbn [bind].
  eexists; split; [reflexivity|split; [|split; [reflexivity|]]].
  - unfold buf_ok; cbn [b_rows b_cols b_vals b_n]; lia.
  - unfold entries_of; cbn [b_rows b_cols b_vals b_n].
    rewrite (set_at_firstn _ _ _ _ _ E1), (set_at_firstn _ _ _ _ _ E2), (set_at_firstn _ _ _ _ _ E3).
    rewrite !combine_snoc; [reflexivity| |]; rewrite ?combine_length, !firstn_length; lia.
Qed.

Lemma empty_buf_ok junk cap : buf_ok cap (empty_buffers junk cap).
Proof. unfold buf_ok, empty_buffers, np_empty; cbn [b_rows b_cols b_vals b_n]; rewrite length_mk1; lia. Qed.

Lemma empty_entries junk cap : entries_of (empty_buffers junk cap) = [].
Proof. reflexivity. Qed.

(** Emitting a list of entries. *)
Definition wrapped (wrap : Z -> Z) (e : nat * nat * Z) : Z * Z * Z :=
  (wrap (Z.of_nat (fst (fst e))), wrap (Z.of_nat (snd (fst e))), snd e).

Definition emits wrap (es : list (nat * nat * Z)) : buffers -> res buffers :=
  for_in es (fun e b => emit wrap (fst (fst e)) (snd (fst e)) (snd e) b).

Lemma emits_ok wrap cap es : forall b, buf_ok cap b -> b_n b + length es <= cap ->
  exists b', emits wrap es b = Ok b' /\ buf_ok cap b' /\ b_n b' = b_n b + length es /\
    entries_of b' = entries_of b ++ map (wrapped wrap) es.
Proof.
  induction es as [|e es IH]; intros b Hb Hl; cbn [emits for_in length map] in *.
  - exists b; repeat split; try apply Hb; [lia|rewrite app_nil_r; reflexivity].
  - destruct (emit_ok wrap cap b (fst (fst e)) (snd (fst e)) (snd e) Hb) as (b1 & E1 & H1 & N1 & S1); [lia|].
    unfold emits; cbn [for_in]; rewrite E1; cbn [bind]. fold (emits wrap es).
    destruct (IH b1 H1) as (b2 & E2 & H2 & N2 & S2); [lia|].
    unfold emits in E2; exists b2; split; [exact E2|split; [exact H2|split; [lia|]]].
    rewrite S2, S1, <- app_assoc; reflexivity.
Qed.

(** A loop over [L] that emits [m] entries for each element. *)
Lemma emit_loop wrap cap (m : nat) (ent : list nat -> list (nat * nat * Z))
    (L : list (list nat)) (body : list nat -> buffers -> res buffers) b0 :
  (forall s b, In s L -> body s b = emits wrap (ent s) b) ->
  (forall s, In s L -> length (ent s) = m) ->
  buf_ok cap b0 -> b_n b0 = 0 -> m * length L <= cap ->
  exists b, for_in L body b0 = Ok b /\ entries_of b = map (wrapped wrap) (flat_map ent L).
Proof.
  intros Hbody Hm Hb0 Hn0 Hcap.
  destruct (for_in_inv L body (fun pre b => buf_ok cap b /\ b_n b = m * length pre /\
     entries_of b = map (wrapped wrap) (flat_map ent pre)) b0) as (b & E & _ & _ & HS).
  - split; [exact Hb0|split; [rewrite Hn0; cbn; lia|]]. unfold entries_of; rewrite Hn0; reflexivity.
  - intros pre s post b EL (Hb & Hn & HS).
    assert (Hs : In s L) by (rewrite EL; apply in_or_app; right; left; reflexivity).
    assert (HL : length L = length pre + S (length post)) by (rewrite EL, app_length; reflexivity).
    destruct (emits_ok wrap cap (ent s) b Hb) as (b' & E' & Hb' & Hn' & HS').
    { rewrite (Hm s Hs), Hn. nia. }
    exists b'; split; [rewrite Hbody by exact Hs; exact E'|split; [exact Hb'|split]].
    + rewrite Hn', Hn, (Hm s Hs), app_length; cbn [length]; lia.
    + rewrite HS', HS, flat_map_app, map_app; cbn [flat_map]; rewrite app_nil_r; reflexivity.
  - exists b; split; assumption.
Qed.

(** The same with a counter of elements as row number. *)
Definition numbered {A} (L : list A) : list (nat * A) := combine (seq 0 (length L)) L.

Lemma combine_app {A B} (l1 l1' : list A) (l2 l2' : list B) : length l1 = length l2 ->
  combine (l1 ++ l1') (l2 ++ l2') = combine l1 l2 ++ combine l1' l2'.
Proof.
  revert l2; induction l1 as [|a l1 IH]; intros [|b l2] H; cbn in *; try lia; [reflexivity|].
  f_equal; apply IH; lia.
Qed.

Lemma numbered_snoc {A} (L : list A) x : numbered (L ++ [x]) = numbered L ++ [(length L, x)].
Proof.
  unfold numbered; rewrite app_length, Nat.add_1_r, seq_S; cbn [Nat.add].
  rewrite combine_app by (rewrite seq_length; reflexivity); reflexivity.
Qed.

Lemma emit_loop_num wrap cap (m : nat) (ent : nat -> list nat -> list (nat * nat * Z))
    (L : list (list nat)) (body : list nat -> buffers * nat -> res (buffers * nat)) b0 :
  (forall s b c, In s L -> body s (b, c) = (b' <- emits wrap (ent c s) b ;; Ok (b', c + 1))) ->
  (forall c s, In s L -> length (ent c s) = m) ->
  buf_ok cap b0 -> b_n b0 = 0 -> m * length L <= cap ->
  exists b, for_in L body (b0, 0) = Ok (b, length L) /\
    entries_of b = map (wrapped wrap) (flat_map (fun p => ent (fst p) (snd p)) (numbered L)).
Proof.
  intros Hbody Hm Hb0 Hn0 Hcap.
  destruct (for_in_inv L body (fun pre st => buf_ok cap (fst st) /\ snd st = length pre /\
     b_n (fst st) = m * length pre /\
     entries_of (fst st) = map (wrapped wrap) (flat_map (fun p => ent (fst p) (snd p)) (numbered pre)))
     (b0, 0)) as ([b c] & E & _ & HC & _ & HS).
  - cbn [fst snd]; split; [exact Hb0|split; [reflexivity|split; [rewrite Hn0; cbn; lia|]]].
    unfold entries_of; rewrite Hn0; reflexivity.
  - intros pre s post [b c] EL (Hb & Hc & Hn & HS); cbn [fst snd] in *.
    assert (Hs : In s L) by (rewrite EL; apply in_or_app; right; left; reflexivity).
    assert (HL : length L = length pre + S (length post)) by (rewrite EL, app_length; reflexivity).
    destruct (emits_ok wrap cap (ent c s) b Hb) as (b' & E' & Hb' & Hn' & HS').
    { rewrite (Hm c s Hs), Hn. nia. }
    exists (b', c + 1); split; [rewrite Hbody by exact Hs; rewrite E'; reflexivity|].
    cbn [fst snd]; split; [exact Hb'|split; [|split]].
    + rewrite app_length, Hc; reflexivity.
    + rewrite Hn', Hn, (Hm c s Hs), app_length; cbn [length]; lia.
    + rewrite HS', HS, numbered_snoc, flat_map_app, map_app; cbn [flat_map fst snd].
      rewrite app_nil_r, Hc; reflexivity.
  - cbn [fst snd] in *; exists b; split; [rewrite E, HC; reflexivity|exact HS].
Qed.

(** ** csr_array *)
Lemma wrap32_id x : (0 <= x < 2 ^ 31)%Z -> wrap32 x = x.
Proof. intros H; unfold wrap32; rewrite Z.mod_small; lia. Qed.
Lemma wrap64_id x : (0 <= x < 2 ^ 63)%Z -> wrap64 x = x.
Proof. intros H; unfold wrap64; rewrite Z.mod_small; lia. Qed.

Lemma csr_ok wrap lim b n m (L : list (nat * nat * Z)) :
  (forall x, (0 <= x < lim)%Z -> wrap x = x) ->
  (Z.of_nat n <= lim)%Z -> (Z.of_nat m <= lim)%Z ->
  entries_of b = map (wrapped wrap) L ->
  (forall r c v, In (r, c, v) L -> r < n /\ c < m) ->
  csr_array b n m = Ok (mkSparse n m L).
Proof.
  intros Hw Hn Hm HE HL; unfold csr_array; fold (entries_of b); rewrite HE.
  assert (E : forall L', incl L' L -> map_res (fun e =>
      r <- to_index n (fst (fst e)) ;; c <- to_index m (snd (fst e)) ;; Ok (r, c, snd e))
      (map (wrapped wrap) L') = Ok L').
  { induction L' as [|[[r c] v] L' IH]; intros I; cbn [map map_res]; [reflexivity|].
    destruct (HL r c v) as [Hr Hc]; [apply I; left; reflexivity|].
    assert (T : forall bound x, x < bound -> (Z.of_nat bound <= lim)%Z -> to_index bound (wrap (Z.of_nat x)) = Ok x).
    { intros bound x Hx Hb; rewrite Hw by lia; unfold to_index.
      rewrite (proj2 (Z.leb_le 0 _)), (proj2 (Z.ltb_lt (Z.of_nat x) _)) by lia; cbn [andb].
      rewrite Nat2Z.id; reflexivity. }
    unfold wrapped at 1; cbn [fst snd]; rewrite (T n r Hr Hn); cbn [bind].
    unfold wrapped at 1; cbn [fst snd]; rewrite (T m c Hc Hm); cbn [bind].
    rewrite IH; [reflexivity|]. intros e He; apply I; right; exact He. }
  rewrite E by apply incl_refl; reflexivity.
Qed.

(** ** Rows of a sparse matrix made of blocks of entries *)
Lemma filter_nil {A} (f : A -> bool) l : (forall x, In x l -> f x = false) -> filter f l = [].
Proof.
  induction l as [|x l IH]; intros H; cbn [filter]; [reflexivity|].
  rewrite H by (left; reflexivity); apply IH; intros; apply H; right; assumption.
Qed.
Lemma filter_all {A} (f : A -> bool) l : (forall x, In x l -> f x = true) -> filter f l = l.
Proof.
  induction l as [|x l IH]; intros H; cbn [filter]; [reflexivity|].
  rewrite H by (left; reflexivity); f_equal; apply IH; intros; apply H; right; assumption.
Qed.

Section Blocks.
Context {A : Type} (key : A -> nat) (ent : A -> list (nat * nat * Z)).
Hypothesis Hkey : forall s e, In e (ent s) -> fst (fst e) = key s.

Lemma rows_absent r L : (forall s, In s L -> key s <> r) ->
  filter (fun e => fst (fst e) =? r) (flat_map ent L) = [].
Proof.
  intros H; apply filter_nil; intros e He; apply in_flat_map in He; destruct He as (s & Hs & He).
  rewrite (Hkey s e He); apply Nat.eqb_neq, H, Hs.
Qed.

Lemma rows_present s L : NoDup (map key L) -> In s L ->
  filter (fun e => fst (fst e) =? key s) (flat_map ent L) = ent s.
Proof.
  induction L as [|u L IH]; intros N Hs; [destruct Hs|].
  cbn [flat_map map] in *; inversion N as [|? ? Nu NL]; subst; rewrite filter_app.
  destruct Hs as [->|Hs].
  - rewrite filter_all, rows_absent, app_nil_r; [reflexivity| |].
    + intros v Hv E; apply Nu; rewrite <- E; apply in_map; exact Hv.
    + intros e He; rewrite (Hkey s e He); apply Nat.eqb_refl.
  - rewrite (filter_nil _ (ent u)); [cbn [app]; apply IH; assumption|].
    intros e He; rewrite (Hkey u e He); apply Nat.eqb_neq; intros E.
    apply Nu; rewrite E; apply in_map; exact Hs.
Qed.
End Blocks.

(** Row [r] of [M @ v]. *)
Definition row_val {K : ring} (es : list (nat * nat * Z)) (v : list K) : K :=
  rsum (map (fun e => rmul (rofZ (snd e)) (nth (snd (fst e)) v r0)) es).

Lemma matvec_row {K : ring} M (v : list K) r : length v = s_cols M -> r < s_rows M ->
  exists w, matvec M v = Ok w /\ length w = s_rows M /\
    nth r w r0 = row_val (filter (fun e => fst (fst e) =? r) (s_entries M)) v.
Proof.
  intros Hv Hr; unfold matvec; rewrite (proj2 (Nat.eqb_eq _ _) Hv).
  eexists; split; [reflexivity|split; [apply length_mk1|]]. rewrite nth_mk1 by exact Hr; reflexivity.
Qed.

Lemma matvec_ok {K : ring} M (v : list K) : length v = s_cols M ->
  exists w, matvec M v = Ok w /\ length w = s_rows M /\
    forall r, r < s_rows M ->
      nth_error w r = Some (row_val (filter (fun e => fst (fst e) =? r) (s_entries M)) v).
Proof.
  intros Hv; unfold matvec; rewrite (proj2 (Nat.eqb_eq _ _) Hv).
  eexists; split; [reflexivity|split; [apply length_mk1|]]. intros r Hr.
  unfold mk1; rewrite nth_error_map_seq by exact Hr; reflexivity.
Qed.

Section RingVals.
Context (K : ring).
Add Ring Kring : (rth K).
Lemma row_val2 r a b (v : list K) : row_val [(r, a, 1%Z); (r, b, (-1)%Z)] v = rsub (nth a v r0) (nth b v r0).
Proof. unfold row_val, rsum; cbn [map fold_right fst snd rofZ Pos.iter]; ring. Qed.
Lemma row_val3 r a b c (v : list K) :
  row_val [(r, a, 1%Z); (r, b, 1%Z); (r, c, (-1)%Z)] v =
  rsub (radd (nth a v r0) (nth b v r0)) (nth c v r0).
Proof. unfold row_val, rsum; cbn [map fold_right fst snd rofZ Pos.iter]; ring. Qed.
Lemma row_val4 r a b c d (v : list K) :
  row_val [(r, a, 1%Z); (r, b, (-1)%Z); (r, c, 1%Z); (r, d, (-1)%Z)] v =
  rsub (radd (rsub (nth a v r0) (nth b v r0)) (nth c v r0)) (nth d v r0).
Proof. unfold row_val, rsum; cbn [map fold_right fst snd rofZ Pos.iter]; ring. Qed.
Lemma row_val1 r a (v : list K) : row_val [(r, a, 1%Z)] v = nth a v r0.
Proof. unfold row_val, rsum; cbn [map fold_right fst snd rofZ Pos.iter]; ring. Qed.
End RingVals.
Lemma row_val0 {K : ring} (v : list K) : row_val [] v = r0.
Proof. reflexivity. Qed.

Lemma numbered_in {A} (L : list A) r s : In (r, s) (numbered L) <-> nth_error L r = Some s.
Proof.
  unfold numbered; rewrite <- (Nat.sub_0_r r) at 2.
  assert (G : forall L a r, In (r, s) (combine (seq a (length L)) L) <-> a <= r /\ nth_error L (r - a) = Some s).
  { clear; induction L as [|x L IH]; intros a r; cbn [length seq combine].
    - split; [intros []|intros [_ H]; destruct (r - a); discriminate H].
    - cbn [In]; rewrite IH; split.
      + intros [E|[H1 H2]].
        * injection E as -> ->; split; [lia|rewrite Nat.sub_diag; reflexivity].
        * split; [lia|]. replace (r - a) with (S (r - S a)) by lia; exact H2.
      + intros [H1 H2]; destruct (Nat.eq_dec r a) as [->|ne].
        * left; rewrite Nat.sub_diag in H2; injection H2 as ->; reflexivity.
        * right; split; [lia|]. replace (r - a) with (S (r - S a)) in H2 by lia; exact H2. }
  rewrite G; split; [intros [_ H]; exact H|intros H; split; [lia|exact H]].
Qed.

Lemma numbered_keys {A} (L : list A) : map fst (numbered L) = seq 0 (length L).
Proof.
  unfold numbered; generalize 0; induction L as [|x L IH]; intros a; cbn; [reflexivity|]; f_equal; apply IH.
Qed.

(** ** Numbering of edges and triangles *)
Lemma simplex2 n i j : simplex n 1 [i; j] <-> i < j < n.
Proof.
  split.
  - intros (_ & S1 & F); apply StronglySorted_inv in S1; destruct S1 as [_ H].
    inversion H; inversion F as [|? ? ? F2]; inversion F2; subst; lia.
  - intros H; repeat split; repeat constructor; lia.
Qed.
Lemma simplex3 n i j k : simplex n 2 [i; j; k] <-> i < j /\ j < k < n.
Proof.
  split.
  - intros (_ & S1 & F); apply StronglySorted_inv in S1; destruct S1 as [S2 H].
    apply StronglySorted_inv in S2; destruct S2 as [_ H2].
    inversion H; inversion H2; subst. inversion F as [|? ? ? F2]; inversion F2 as [|? ? ? F3]; inversion F3; subst; lia.
  - intros H; repeat split; repeat constructor; lia.
Qed.
Lemma simplex4 n i j k l : simplex n 3 [i; j; k; l] <-> i < j /\ j < k /\ k < l < n.
Proof.
  split.
  - intros (_ & S1 & F); apply StronglySorted_inv in S1; destruct S1 as [S2 H].
    apply StronglySorted_inv in S2; destruct S2 as [S3 H2].
    apply StronglySorted_inv in S3; destruct S3 as [_ H3].
    inversion H; inversion H2; inversion H3; subst. rewrite Forall_forall in F.
    pose proof (F l); cbn in *; intuition lia.
  - intros H; repeat split; repeat constructor; lia.
Qed.

Lemma rank_lt_d n d s : simplex n d s -> rank s < comb n (S d).
Proof. intros (L & S1 & F); rewrite <- L; apply rank_lt; assumption. Qed.

Lemma comb2_le_3 n : 5 <= n -> comb n 2 <= comb n 3.
Proof. intros H; pose proof (comb_2 n); pose proof (comb_3 n); nia. Qed.

Lemma comb2_lim n lim : (10 <= lim)%Z -> (Z.of_nat (comb n 3) <= lim)%Z -> (Z.of_nat (comb n 2) <= lim)%Z.
Proof.
  intros H0 H; destruct (Nat.le_gt_cases 5 n) as [G|G].
  - pose proof (comb2_le_3 n G); lia.
  - assert (comb n 2 <= comb 5 2) by (apply comb_mono; lia). change (comb 5 2) with 10 in *; lia.
Qed.

Section Matrices.
Context {D : Type} (ltD : D -> D -> bool) (junk : nat -> Z) (dm : list (list D)) (t : D) (N Dm : nat).
Hypothesis Hsq : square dm.
Notation n := (length dm).
Hypothesis HN : n <= N.
Notation T := (combinatorial_number_system_table N Dm).
Notation rl := (rl ltD dm t).

Lemma d1_ok i j : 1 <= Dm -> i < j < n -> combinatorial_number_system_d1_forward i j T = Ok (rank [i; j]).
Proof.
  intros H Hij; rewrite d1_generic; apply (forward_ok N Dm n 1); try assumption. apply simplex2; exact Hij.
Qed.
Lemma d2_ok i j k : 2 <= Dm -> i < j /\ j < k < n ->
  combinatorial_number_system_d2_forward i j k T = Ok (rank [i; j; k]).
Proof.
  intros H Hijk; rewrite d2_generic; apply (forward_ok N Dm n 2); try assumption. apply simplex3; exact Hijk.
Qed.

Lemma rl_simplex d s : In s (rl d) -> simplex n d s.
Proof. intros H; apply rlist_in in H; apply H. Qed.

Lemma rl_keys d : NoDup (map rank (rl d)).
Proof. apply (rank_inj_list n d); [apply rlist_NoDup|apply rl_simplex]. Qed.

(** *** delta0 *)
Definition ent0 (s : list nat) : list (nat * nat * Z) :=
  match s with [i; j] => [(rank s, i, 1%Z); (rank s, j, (-1)%Z)] | _ => [] end.

Lemma delta0_ok : 1 <= Dm -> (Z.of_nat (comb n 2) <= 2 ^ 31)%Z ->
  make_delta0 ltD junk dm t T = Ok (mkSparse (comb n 2) n (flat_map ent0 (rl 1))).
Proof.
  intros HD Hlim; unfold make_delta0; rewrite for_edges_ok by exact Hsq; rewrite n_edges_comb.
  destruct (emit_loop wrap32 (2 * comb n 2) 2 ent0 (rl 1)
    (on2 (fun i j b => row_index <- combinatorial_number_system_d1_forward i j T ;;
             b0 <- emit wrap32 row_index i 1%Z b ;; emit wrap32 row_index j (-1)%Z b0))
    (empty_buffers junk (2 * comb n 2))) as (b & E & HE).
  - intros s b Hs; apply rl_simplex in Hs; pose proof Hs as (L & _ & _).
    destruct s as [|i [|j [|? ?]]]; try discriminate L; apply simplex2 in Hs.
    cbn [on2 ent0]; rewrite d1_ok by assumption; cbn [bind].
    unfold emits; cbn [for_in fst snd]. destruct (emit wrap32 (rank [i; j]) i 1%Z b) as [b1|]; cbn [bind]; [|reflexivity].
    destruct (emit wrap32 (rank [i; j]) j (-1)%Z b1); reflexivity.
  - intros s Hs; apply rl_simplex in Hs; destruct Hs as (L & _ & _).
    destruct s as [|i [|j [|? ?]]]; try discriminate L; reflexivity.
  - apply empty_buf_ok.
  - reflexivity.
  - pose proof (rlist_length n (closeb ltD dm t) 1); unfold RipsProofs.rl; lia.
  - rewrite E; cbn [bind]. apply (csr_ok wrap32 (2 ^ 31)); try assumption.
    + apply wrap32_id.
    + pose proof (comb_2 n) as C2; destruct n as [|[|[|m]]]; [lia..|]. nia.
    + intros r c v He; apply in_flat_map in He; destruct He as (s & Hs & He).
      apply rl_simplex in Hs; pose proof (rank_lt_d n 1 s Hs); pose proof Hs as (L & _ & _).
      destruct s as [|i [|j [|? ?]]]; try discriminate L; apply simplex2 in Hs.
      cbn [ent0] in He; destruct He as [He|[He|[]]]; injection He as <- <- <-; lia.
Qed.

Lemma ent0_key s e : In e (ent0 s) -> fst (fst e) = rank s.
Proof.
  destruct s as [|i [|j [|? ?]]]; cbn [ent0]; intros H; destruct H as [<-|[<-|[]]] || destruct H; reflexivity.
Qed.

(** *** delta1 *)
Definition ent1 (r : nat) (s : list nat) : list (nat * nat * Z) :=
  match s with
  | [i; j; k] => [(r, rank [i; j], 1%Z); (r, rank [j; k], 1%Z); (r, rank [i; k], (-1)%Z)]
  | _ => [] end.

Lemma ent1_key r s e : In e (ent1 r s) -> fst (fst e) = r.
Proof.
  destruct s as [|i [|j [|k [|? ?]]]]; cbn [ent1]; intros H;
    (destruct H as [<-|[<-|[<-|[]]]] || destruct H); reflexivity.
Qed.

Lemma ent1_bound r s e : In s (rl 2) -> In e (ent1 r s) -> snd (fst e) < comb n 2.
Proof.
  intros Hs He; apply rl_simplex in Hs; pose proof Hs as (L & _ & _).
  destruct s as [|i [|j [|k [|? ?]]]]; try discriminate L; apply simplex3 in Hs.
  assert (E : forall a b, a < b < n -> rank [a; b] < comb n 2) by (intros; apply (rank_lt_d n 1), simplex2; assumption).
  cbn [ent1] in He; destruct He as [<-|[<-|[<-|[]]]]; cbn [fst snd]; apply E; lia.
Qed.

Lemma delta1_body_gen r i j k b : 2 <= Dm -> i < j /\ j < k < n ->
  (column_index_ij <- combinatorial_number_system_d1_forward i j T ;;
   column_index_jk <- combinatorial_number_system_d1_forward j k T ;;
   column_index_ik <- combinatorial_number_system_d1_forward i k T ;;
   b <- emit wrap32 r column_index_ij 1%Z b ;;
   b <- emit wrap32 r column_index_jk 1%Z b ;;
   emit wrap32 r column_index_ik (-1)%Z b) = emits wrap32 (ent1 r [i; j; k]) b.
Proof.
  intros HD H; rewrite !d1_ok by lia; cbn [bind]; unfold emits; cbn [ent1 for_in fst snd].
  destruct (emit wrap32 r (rank [i; j]) 1%Z b) as [b1|]; cbn [bind]; [|reflexivity].
  destruct (emit wrap32 r (rank [j; k]) 1%Z b1) as [b2|]; cbn [bind]; [|reflexivity].
  destruct (emit wrap32 r (rank [i; k]) (-1)%Z b2); reflexivity.
Qed.

Lemma delta1_ok : 2 <= Dm -> (Z.of_nat (comb n 3) <= 2 ^ 31)%Z ->
  make_delta1 ltD junk dm t T =
    Ok (mkSparse (comb n 3) (comb n 2) (flat_map (fun s => ent1 (rank s) s) (rl 2))).
Proof.
  intros HD Hlim; unfold make_delta1.
  rewrite number_of_simplices_ok by assumption; cbn [bind Nat.add].
  rewrite n_edges_comb, for_triangles_ok by exact Hsq.
  match goal with |- context [for_in _ ?bd _] =>
  destruct (emit_loop wrap32 (3 * comb n 3) 3 (fun s => ent1 (rank s) s) (rl 2) bd
    (empty_buffers junk (3 * comb n 3))) as (b & E & HE) end.
  - intros s b Hs; apply rl_simplex in Hs; pose proof Hs as (L & _ & _).
    destruct s as [|i [|j [|k [|? ?]]]]; try discriminate L; apply simplex3 in Hs.
    cbn [on3]; rewrite d2_ok by assumption; cbn [bind]. apply delta1_body_gen; assumption.
  - intros s Hs; apply rl_simplex in Hs; destruct Hs as (L & _ & _).
    destruct s as [|i [|j [|k [|? ?]]]]; try discriminate L; reflexivity.
  - apply empty_buf_ok.
  - reflexivity.
  - pose proof (rlist_length n (closeb ltD dm t) 2); unfold RipsProofs.rl; lia.
  - rewrite E; cbn [bind]. apply (csr_ok wrap32 (2 ^ 31)); try assumption.
    + apply wrap32_id.
    + apply comb2_lim; lia.
    + intros r c v He; apply in_flat_map in He; destruct He as (s & Hs & He).
      pose proof (ent1_key _ _ _ He) as K1; pose proof (ent1_bound _ _ _ Hs He) as K2; cbn [fst snd] in *.
      apply rl_simplex in Hs; pose proof (rank_lt_d n 2 s Hs); lia.
Qed.

Lemma delta1_compact_ok : 2 <= Dm -> (Z.of_nat (comb n 3) <= 2 ^ 31)%Z ->
  make_delta1_compact ltD junk dm t T =
    Ok (mkSparse (length (rl 2)) (comb n 2) (flat_map (fun p => ent1 (fst p) (snd p)) (numbered (rl 2)))).
Proof.
  intros HD Hlim; unfold make_delta1_compact.
  rewrite number_of_simplices_ok by assumption; cbn [bind Nat.add].
  rewrite n_edges_comb, for_triangles_ok by exact Hsq.
  pose proof (rlist_length n (closeb ltD dm t) 2) as HL; fold rl in HL.
  match goal with |- context [for_in _ ?bd _] =>
  destruct (emit_loop_num wrap32 (3 * comb n 3) 3 ent1 (rl 2) bd
    (empty_buffers junk (3 * comb n 3))) as (b & E & HE) end.
  - intros s b c Hs; apply rl_simplex in Hs; pose proof Hs as (L & _ & _).
    destruct s as [|i [|j [|k [|? ?]]]]; try discriminate L; apply simplex3 in Hs.
    cbn [on3 fst snd]; rewrite <- (delta1_body_gen c i j k b HD Hs).
    rewrite !d1_ok by lia; cbn [bind].
    destruct (emit wrap32 c (rank [i; j]) 1%Z b) as [b1|]; cbn [bind]; [|reflexivity].
    destruct (emit wrap32 c (rank [j; k]) 1%Z b1) as [b2|]; cbn [bind]; reflexivity.
  - intros c s Hs; apply rl_simplex in Hs; destruct Hs as (L & _ & _).
    destruct s as [|i [|j [|k [|? ?]]]]; try discriminate L; reflexivity.
  - apply empty_buf_ok.
  - reflexivity.
  - unfold RipsProofs.rl in *; lia.
  - rewrite E; cbn [bind fst snd]. apply (csr_ok wrap32 (2 ^ 31)); try assumption.
    + apply wrap32_id.
    + unfold RipsProofs.rl; lia.
    + apply comb2_lim; lia.
    + intros r c v He; apply in_flat_map in He; destruct He as ([r' s] & Hs & He); cbn [fst snd] in He.
      apply numbered_in in Hs.
      pose proof (ent1_key _ _ _ He) as K1; pose proof (ent1_bound _ _ _ (nth_error_In _ _ Hs) He) as K2; cbn [fst snd] in *.
      subst r'; split; [apply nth_error_Some; congruence|exact K2].
Qed.

(** *** delta2 *)
Definition ent2 (r : nat) (s : list nat) : list (nat * nat * Z) :=
  match s with
  | [i; j; k; l] => [(r, rank [i; j; k], 1%Z); (r, rank [i; j; l], (-1)%Z);
                     (r, rank [i; k; l], 1%Z); (r, rank [j; k; l], (-1)%Z)]
  | _ => [] end.

Lemma ent2_key r s e : In e (ent2 r s) -> fst (fst e) = r.
Proof.
  destruct s as [|i [|j [|k [|l [|? ?]]]]]; cbn [ent2]; intros H;
    (destruct H as [<-|[<-|[<-|[<-|[]]]]] || destruct H); reflexivity.
Qed.

Lemma ent2_bound r s e : In s (rl 3) -> In e (ent2 r s) -> snd (fst e) < comb n 3.
Proof.
  intros Hs He; apply rl_simplex in Hs; pose proof Hs as (L & _ & _).
  destruct s as [|i [|j [|k [|l [|? ?]]]]]; try discriminate L; apply simplex4 in Hs.
  assert (E : forall a b c, a < b /\ b < c < n -> rank [a; b; c] < comb n 3) by (intros; apply (rank_lt_d n 2), simplex3; assumption).
  cbn [ent2] in He; destruct He as [<-|[<-|[<-|[<-|[]]]]]; cbn [fst snd]; apply E; lia.
Qed.

Lemma delta2_compact_ok : 3 <= Dm -> (Z.of_nat (comb n 3) <= 2 ^ 31)%Z ->
  (Z.of_nat (length (rl 3)) <= 2 ^ 31)%Z ->
  make_delta2_compact ltD junk dm t T =
    Ok (mkSparse (length (rl 3)) (comb n 3) (flat_map (fun p => ent2 (fst p) (snd p)) (numbered (rl 3)))).
Proof.
  intros HD Hlim Hlim4; unfold make_delta2_compact.
  rewrite !number_of_simplices_ok by (assumption || lia); cbn [bind Nat.add].
  rewrite for_tetrahedra_ok by exact Hsq.
  pose proof (rlist_length n (closeb ltD dm t) 3) as HL; fold rl in HL.
  match goal with |- context [for_in _ ?bd _] =>
  destruct (emit_loop_num wrap32 (4 * comb n 4) 4 ent2 (rl 3) bd
    (empty_buffers junk (4 * comb n 4))) as (b & E & HE) end.
  - intros s b c Hs; apply rl_simplex in Hs; pose proof Hs as (L & _ & _).
    destruct s as [|i [|j [|k [|l [|? ?]]]]]; try discriminate L; apply simplex4 in Hs.
    cbn [on4 fst snd]; rewrite !d2_ok by lia; cbn [bind]; unfold emits; cbn [ent2 for_in fst snd].
    destruct (emit wrap32 c (rank [i; j; k]) 1%Z b) as [b1|]; cbn [bind]; [|reflexivity].
    destruct (emit wrap32 c (rank [i; j; l]) (-1)%Z b1) as [b2|]; cbn [bind]; [|reflexivity].
    destruct (emit wrap32 c (rank [i; k; l]) 1%Z b2) as [b3|]; cbn [bind]; [|reflexivity].
    destruct (emit wrap32 c (rank [j; k; l]) (-1)%Z b3) as [b4|]; cbn [bind]; reflexivity.
  - intros c s Hs; apply rl_simplex in Hs; destruct Hs as (L & _ & _).
    destruct s as [|i [|j [|k [|l [|? ?]]]]]; try discriminate L; reflexivity.
  - apply empty_buf_ok.
  - reflexivity.
  - unfold RipsProofs.rl in *; lia.
  - rewrite E; cbn [bind fst snd]. apply (csr_ok wrap32 (2 ^ 31)); try assumption.
    + apply wrap32_id.
    + intros r c v He; apply in_flat_map in He; destruct He as ([r' s] & Hs & He); cbn [fst snd] in He.
      apply numbered_in in Hs.
      pose proof (ent2_key _ _ _ He) as K1; pose proof (ent2_bound _ _ _ (nth_error_In _ _ Hs) He) as K2; cbn [fst snd] in *.
      subst r'; split; [apply nth_error_Some; congruence|exact K2].
Qed.

(** *** inner product *)
Definition entw (s : list nat) : list (nat * nat * Z) := [(rank s, rank s, 1%Z)].

Lemma inner_product_ok : 1 <= Dm -> (Z.of_nat (comb n 2) <= 2 ^ 63)%Z ->
  let W := mkSparse (comb n 2) (comb n 2) (flat_map entw (rl 1)) in
  make_inner_product ltD junk dm t T = Ok (W, W).
Proof.
  intros HD Hlim W; unfold make_inner_product; rewrite for_edges_ok by exact Hsq; rewrite n_edges_comb.
  match goal with |- context [for_in _ ?bd _] =>
  destruct (emit_loop wrap64 (comb n 2) 1 entw (rl 1) bd
    (empty_buffers junk (comb n 2))) as (b & E & HE) end.
  - intros s b Hs; apply rl_simplex in Hs; pose proof Hs as (L & _ & _).
    destruct s as [|i [|j [|? ?]]]; try discriminate L; apply simplex2 in Hs.
    cbn [on2 entw]; rewrite d1_ok by assumption; cbn [bind].
    unfold emits, entw; cbn [for_in fst snd]. destruct (emit wrap64 (rank [i; j]) (rank [i; j]) 1%Z b) as [b1|]; reflexivity.
  - reflexivity.
  - apply empty_buf_ok.
  - reflexivity.
  - pose proof (rlist_length n (closeb ltD dm t) 1); unfold RipsProofs.rl; lia.
  - rewrite E; cbn [bind].
    rewrite (csr_ok wrap64 (2 ^ 63) b _ _ (flat_map entw (rl 1))); try assumption; [reflexivity| |].
    + apply wrap64_id.
    + intros r c v He; apply in_flat_map in He; destruct He as (s & Hs & He).
      apply rl_simplex in Hs; pose proof (rank_lt_d n 1 s Hs).
      destruct He as [He|[]]; injection He as <- <- <-; lia.
Qed.
End Matrices.
