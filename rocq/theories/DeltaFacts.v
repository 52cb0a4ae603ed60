(** DeltaFacts.v -- the coboundary matrices applied to vectors, cocycle tests. *)
From Coq Require Import Sorted Ring Ring_theory.
From Verif Require Import Base BaseProofs CombinatorialModel SpecSimplex CombinatorialProofs
  DeltaModel SpecRips RipsProofs DeltaProofs.

Lemma tri_faces n i j k : simplex n 2 [i; j; k] ->
  simplex n 1 [i; j] /\ simplex n 1 [j; k] /\ simplex n 1 [i; k].
Proof. intros H; apply simplex3 in H; split; [|split]; apply simplex2; lia. Qed.

Lemma tet_faces n i j k l : simplex n 3 [i; j; k; l] ->
  simplex n 2 [i; j; k] /\ simplex n 2 [i; j; l] /\ simplex n 2 [i; k; l] /\ simplex n 2 [j; k; l].
Proof. intros H; apply simplex4 in H; split; [|split; [|split]]; apply simplex3; lia. Qed.

Section Facts.
Context {D : Type} (ltD : D -> D -> bool) (dm : list (list D)) (t : D) (N Dm : nat).
Hypothesis Hsq : square dm.
Notation n := (length dm).
Hypothesis HN : n <= N.
Notation T := (combinatorial_number_system_table N Dm).
Notation rl := (rl ltD dm t).

Lemma value_at_rank {A} (v : list A) d s x : d <= Dm -> simplex n d s ->
  (value_at T v s x <-> nth_error v (rank s) = Some x).
Proof.
  intros Hd Hs; unfold value_at; rewrite (forward_ok N Dm n d) by assumption; split.
  - intros (k & E & H); apply Ok_inj in E; subst k; exact H.
  - intros H; exists (rank s); split; [reflexivity|exact H].
Qed.

Lemma value_exists {A} (v : list A) d s : d <= Dm -> simplex n d s -> length v = comb n (S d) ->
  exists x, value_at T v s x.
Proof.
  intros Hd Hs L; pose proof (rank_lt_d n d s Hs) as R.
  destruct (nth_error v (rank s)) as [x|] eqn:E; [|apply nth_error_None in E; lia].
  exists x; apply (value_at_rank v d); assumption.
Qed.

Lemma value_unique {A} (v : list A) s x y : value_at T v s x -> value_at T v s y -> x = y.
Proof. intros (k & E & H) (k' & E' & H'); rewrite E in E'; apply Ok_inj in E'; subst; congruence. Qed.

(** Block of a simplex among the blocks of the Rips simplices. *)
Lemma block_in d (ent : list nat -> list (nat * nat * Z)) s : (forall u e, In e (ent u) -> fst (fst e) = rank u) -> In s (rl d) ->
  filter (fun e => fst (fst e) =? rank s) (flat_map ent (rl d)) = ent s.
Proof. intros H Hs; apply (rows_present rank ent H); [apply rl_keys|exact Hs]. Qed.

Lemma block_out d (ent : list nat -> list (nat * nat * Z)) s : (forall u e, In e (ent u) -> fst (fst e) = rank u) ->
  simplex n d s -> ~ In s (rl d) ->
  filter (fun e => fst (fst e) =? rank s) (flat_map ent (rl d)) = [].
Proof.
  intros H Hs Hn; apply (rows_absent rank ent H). intros u Hu E; apply Hn.
  assert (u = s) as <-; [|exact Hu].
  pose proof (rl_simplex ltD dm t d u Hu) as (a1 & a2 & _); destruct Hs as (b1 & b2 & _).
  apply rank_inj; congruence.
Qed.

Lemma block_num (ent : nat -> list nat -> list (nat * nat * Z)) d r s :
  (forall c u e, In e (ent c u) -> fst (fst e) = c) -> nth_error (rl d) r = Some s ->
  filter (fun e => fst (fst e) =? r) (flat_map (fun p => ent (fst p) (snd p)) (numbered (rl d))) = ent r s.
Proof.
  intros H Hs.
  apply (rows_present (A := nat * list nat) fst (fun p => ent (fst p) (snd p)) (fun p e => H _ _ e) (r, s)).
  - rewrite numbered_keys; apply seq_NoDup.
  - apply numbered_in; exact Hs.
Qed.

Lemma rips1 i j : i < j < n -> (In [i; j] (rl 1) <-> close ltD dm t i j).
Proof.
  intros H; rewrite rl_rips by exact Hsq; unfold rips; split.
  - intros [_ P]; inversion P as [|? ? F _]; subst; inversion F; assumption.
  - intros C; split; [apply simplex2; exact H|]. constructor; [constructor; [exact C|constructor]|].
    constructor; [constructor|constructor].
Qed.

Context (K : ring).

Lemma delta0_apply M (f : list K) : M = mkSparse (comb n 2) n (flat_map ent0 (rl 1)) ->
  1 <= Dm -> length f = n ->
  exists g, matvec M f = Ok g /\ length g = comb n 2 /\
    forall i j x y, i < j < n -> nth_error f i = Some x -> nth_error f j = Some y ->
      (close ltD dm t i j -> value_at T g [i; j] (rsub x y)) /\
      (~ close ltD dm t i j -> value_at T g [i; j] r0).
Proof.
  intros -> HD Lf; destruct (matvec_ok (mkSparse (comb n 2) n (flat_map ent0 (rl 1))) f Lf) as (g & E & Lg & H).
  exists g; split; [exact E|split; [exact Lg|]]; cbn [s_rows s_entries] in *.
  intros i j x y Hij Hx Hy.
  assert (Hs : simplex n 1 [i; j]) by (apply simplex2; exact Hij).
  pose proof (rank_lt_d n 1 _ Hs) as R; specialize (H _ R).
  split; intros C; apply (value_at_rank g 1); try assumption; rewrite H; f_equal.
  - rewrite (block_in 1 ent0) by (apply ent0_key || apply rips1; assumption).
    cbn [ent0]; rewrite row_val2, (nth_error_nth _ _ _ Hx), (nth_error_nth _ _ _ Hy); reflexivity.
  - rewrite (block_out 1 ent0); [reflexivity|apply ent0_key|exact Hs|].
    intros Hin; apply C, rips1; assumption.
Qed.

Lemma row3 (g : list K) r i j k a b e : 2 <= Dm -> simplex n 2 [i; j; k] ->
  value_at T g [i; j] a -> value_at T g [j; k] b -> value_at T g [i; k] e ->
  row_val (ent1 r [i; j; k]) g = rsub (radd a b) e.
Proof.
  intros HD Hs Ha Hb He; destruct (tri_faces n i j k Hs) as (S1 & S2 & S3).
  rewrite (value_at_rank g 1) in Ha, Hb, He by (assumption || lia).
  cbn [ent1]; rewrite row_val3.
  rewrite (nth_error_nth _ _ _ Ha), (nth_error_nth _ _ _ Hb), (nth_error_nth _ _ _ He); reflexivity.
Qed.

Lemma delta1_apply M (g : list K) :
  M = mkSparse (comb n 3) (comb n 2) (flat_map (fun s => ent1 (rank s) s) (rl 2)) ->
  2 <= Dm -> length g = comb n 2 ->
  exists h, matvec M g = Ok h /\ length h = comb n 3 /\
    forall i j k a b e, simplex n 2 [i; j; k] ->
      value_at T g [i; j] a -> value_at T g [j; k] b -> value_at T g [i; k] e ->
      (rips ltD dm t 2 [i; j; k] -> value_at T h [i; j; k] (rsub (radd a b) e)) /\
      (~ rips ltD dm t 2 [i; j; k] -> value_at T h [i; j; k] r0).
Proof.
  intros -> HD Lg.
  destruct (matvec_ok (mkSparse (comb n 3) (comb n 2) (flat_map (fun s => ent1 (rank s) s) (rl 2))) g Lg) as (h & E & Lh & H).
  exists h; split; [exact E|split; [exact Lh|]]; cbn [s_rows s_entries] in *.
  intros i j k a b e Hs Ha Hb He.
  pose proof (rank_lt_d n 2 _ Hs) as R; specialize (H _ R).
  split; intros C; apply (value_at_rank h 2); try assumption; rewrite H; f_equal.
  - rewrite (block_in 2 (fun s => ent1 (rank s) s)).
    + apply row3; assumption.
    + intros u e0; apply ent1_key.
    + apply rl_rips; assumption.
  - rewrite (block_out 2 (fun s => ent1 (rank s) s)); [reflexivity| |exact Hs|].
    + intros u e0; apply ent1_key.
    + intros Hin; apply C, rl_rips; assumption.
Qed.

Lemma delta1_compact_apply M (g : list K) :
  M = mkSparse (length (rl 2)) (comb n 2) (flat_map (fun p => ent1 (fst p) (snd p)) (numbered (rl 2))) ->
  2 <= Dm -> length g = comb n 2 ->
  exists w, matvec M g = Ok w /\ length w = length (rl 2) /\
    forall r i j k a b e, nth_error (rl 2) r = Some [i; j; k] ->
      value_at T g [i; j] a -> value_at T g [j; k] b -> value_at T g [i; k] e ->
      nth_error w r = Some (rsub (radd a b) e).
Proof.
  intros -> HD Lg.
  destruct (matvec_ok (mkSparse (length (rl 2)) (comb n 2) (flat_map (fun p => ent1 (fst p) (snd p)) (numbered (rl 2)))) g Lg)
    as (w & E & Lw & H).
  exists w; split; [exact E|split; [exact Lw|]]; cbn [s_rows s_entries] in *.
  intros r i j k a b e Hr Ha Hb He.
  rewrite H by (apply nth_error_Some; congruence); f_equal.
  rewrite (block_num ent1 2 r [i; j; k]); [|intros c u e0; apply ent1_key|exact Hr].
  apply row3; try assumption. apply (rl_simplex ltD dm t 2); eapply nth_error_In; exact Hr.
Qed.

Lemma delta2_compact_apply M (c : list K) :
  M = mkSparse (length (rl 3)) (comb n 3) (flat_map (fun p => ent2 (fst p) (snd p)) (numbered (rl 3))) ->
  3 <= Dm -> length c = comb n 3 ->
  exists w, matvec M c = Ok w /\ length w = length (rl 3) /\
    forall r i j k l a b e f, nth_error (rl 3) r = Some [i; j; k; l] ->
      value_at T c [i; j; k] a -> value_at T c [i; j; l] b ->
      value_at T c [i; k; l] e -> value_at T c [j; k; l] f ->
      nth_error w r = Some (rsub (radd (rsub a b) e) f).
Proof.
  intros -> HD Lg.
  destruct (matvec_ok (mkSparse (length (rl 3)) (comb n 3) (flat_map (fun p => ent2 (fst p) (snd p)) (numbered (rl 3)))) c Lg)
    as (w & E & Lw & H).
  exists w; split; [exact E|split; [exact Lw|]]; cbn [s_rows s_entries] in *.
  intros r i j k l a b e f Hr Ha Hb He Hf.
  rewrite H by (apply nth_error_Some; congruence); f_equal.
  rewrite (block_num ent2 3 r [i; j; k; l]); [|intros c0 u e0; apply ent2_key|exact Hr].
  assert (Hs : simplex n 3 [i; j; k; l]) by (apply (rl_simplex ltD dm t 3); eapply nth_error_In; exact Hr).
  destruct (tet_faces n i j k l Hs) as (S1 & S2 & S3 & S4).
  rewrite (value_at_rank c 2) in Ha, Hb, He, Hf by (assumption || lia).
  cbn [ent2]; rewrite row_val4.
  rewrite (nth_error_nth _ _ _ Ha), (nth_error_nth _ _ _ Hb), (nth_error_nth _ _ _ He), (nth_error_nth _ _ _ Hf).
  reflexivity.
Qed.

Lemma inner_apply M (g : list K) : M = mkSparse (comb n 2) (comb n 2) (flat_map entw (rl 1)) ->
  1 <= Dm -> length g = comb n 2 ->
  exists h, matvec M g = Ok h /\ length h = comb n 2 /\
    forall i j x, i < j < n -> value_at T g [i; j] x ->
      (close ltD dm t i j -> value_at T h [i; j] x) /\
      (~ close ltD dm t i j -> value_at T h [i; j] r0).
Proof.
  intros -> HD Lg.
  destruct (matvec_ok (mkSparse (comb n 2) (comb n 2) (flat_map entw (rl 1))) g Lg) as (h & E & Lh & H).
  exists h; split; [exact E|split; [exact Lh|]]; cbn [s_rows s_entries] in *.
  intros i j x Hij Hx.
  assert (Hs : simplex n 1 [i; j]) by (apply simplex2; exact Hij).
  rewrite (value_at_rank g 1) in Hx by assumption.
  assert (Hk : forall u e, In e (entw u) -> fst (fst e) = rank u) by (intros u e [<-|[]]; reflexivity).
  pose proof (rank_lt_d n 1 _ Hs) as R; specialize (H _ R).
  split; intros C; apply (value_at_rank h 1); try assumption; rewrite H; f_equal.
  - rewrite (block_in 1 entw) by (exact Hk || apply rips1; assumption).
    unfold entw; rewrite row_val1; apply nth_error_nth; exact Hx.
  - rewrite (block_out 1 entw); [reflexivity|exact Hk|exact Hs|].
    intros Hin; apply C, rips1; assumption.
Qed.
End Facts.

(** ** Coboundary of a coboundary *)
Section Square.
Context {D : Type} (ltD : D -> D -> bool) (dm : list (list D)) (t : D) (N Dm : nat).
Hypothesis Hsq : square dm.
Notation n := (length dm).
Hypothesis HN : n <= N.
Notation T := (combinatorial_number_system_table N Dm).
Context (K : ring).
Add Ring Kring2 : (rth K).

Lemma edge_close_tri i j k : rips ltD dm t 2 [i; j; k] ->
  close ltD dm t i j /\ close ltD dm t j k /\ close ltD dm t i k.
Proof.
  intros [_ P]; inversion P as [|? ? F P1]; subst; inversion P1 as [|? ? F1 _]; subst.
  rewrite Forall_forall in F, F1; repeat split; [apply F|apply F1|apply F]; cbn; auto.
Qed.

(** The value of delta0 f on the three edges of a Rips triangle cancels. *)
Lemma coboundary0_cancels (f g : list K) i j k a b e :
  1 <= Dm -> length f = n ->
  (forall i j x y, i < j < n -> nth_error f i = Some x -> nth_error f j = Some y ->
      (close ltD dm t i j -> value_at T g [i; j] (rsub x y)) /\
      (~ close ltD dm t i j -> value_at T g [i; j] r0)) ->
  rips ltD dm t 2 [i; j; k] ->
  value_at T g [i; j] a -> value_at T g [j; k] b -> value_at T g [i; k] e ->
  rsub (radd a b) e = r0.
Proof.
  intros HD Lf H Hr Ha Hb He; pose proof Hr as [Hs _]; apply simplex3 in Hs.
  destruct (edge_close_tri i j k Hr) as (C1 & C2 & C3).
  assert (V : forall u, u < n -> exists x, nth_error f u = Some x).
  { intros u Hu; destruct (nth_error f u) as [x|] eqn:E; [exists x; reflexivity|apply nth_error_None in E; lia]. }
  destruct (V i) as [x Hx]; [lia|]. destruct (V j) as [y Hy]; [lia|]. destruct (V k) as [z Hz]; [lia|].
  assert (a = rsub x y) as -> by (apply (value_unique N Dm g [i; j]); [exact Ha|apply H; auto; lia]).
  assert (b = rsub y z) as -> by (apply (value_unique N Dm g [j; k]); [exact Hb|apply H; auto; lia]).
  assert (e = rsub x z) as -> by (apply (value_unique N Dm g [i; k]); [exact He|apply H; auto; lia]).
  ring.
Qed.

Lemma faces_rips i j k l : rips ltD dm t 3 [i; j; k; l] ->
  rips ltD dm t 2 [i; j; k] /\ rips ltD dm t 2 [i; j; l] /\
  rips ltD dm t 2 [i; k; l] /\ rips ltD dm t 2 [j; k; l].
Proof.
  intros [Hs P]; destruct (tet_faces n i j k l Hs) as (S1 & S2 & S3 & S4).
  inversion P as [|? ? F P1]; subst; inversion P1 as [|? ? F1 P2]; subst; inversion P2 as [|? ? F2 P3]; subst.
  rewrite Forall_forall in F, F1, F2.
  assert (C : forall a b c, close ltD dm t a b -> close ltD dm t a c -> close ltD dm t b c ->
              ForallOrdPairs (close ltD dm t) [a; b; c]).
  { intros a b c H1 H2 H3; repeat (constructor; auto). }
  unfold rips; repeat split; try apply S1; try apply S2; try apply S3; try apply S4;
    apply C; (apply F || apply F1 || apply F2); cbn; auto.
Qed.

Lemma coboundary1_cancels (g h : list K) i j k l a b e f :
  2 <= Dm -> length g = comb n 2 ->
  (forall i j k a b e, simplex n 2 [i; j; k] ->
      value_at T g [i; j] a -> value_at T g [j; k] b -> value_at T g [i; k] e ->
      (rips ltD dm t 2 [i; j; k] -> value_at T h [i; j; k] (rsub (radd a b) e)) /\
      (~ rips ltD dm t 2 [i; j; k] -> value_at T h [i; j; k] r0)) ->
  rips ltD dm t 3 [i; j; k; l] ->
  value_at T h [i; j; k] a -> value_at T h [i; j; l] b ->
  value_at T h [i; k; l] e -> value_at T h [j; k; l] f ->
  rsub (radd (rsub a b) e) f = r0.
Proof.
  intros HD Lg H Hr Ha Hb He Hf; pose proof Hr as [Hs _]; apply simplex4 in Hs.
  destruct (faces_rips i j k l Hr) as (R1 & R2 & R3 & R4).
  assert (V : forall u v, u < v < n -> exists x, value_at T g [u; v] x).
  { intros u v Huv; apply (value_exists dm N Dm HN g 1); [lia|apply simplex2; exact Huv|exact Lg]. }
  destruct (V i j) as [ij Hij]; [lia|]. destruct (V i k) as [ik Hik]; [lia|]. destruct (V i l) as [il Hil]; [lia|].
  destruct (V j k) as [jk Hjk]; [lia|]. destruct (V j l) as [jl Hjl]; [lia|]. destruct (V k l) as [kl Hkl]; [lia|].
  assert (a = rsub (radd ij jk) ik) as -> by (apply (value_unique N Dm h [i; j; k]); [exact Ha|apply H; auto; apply R1]).
  assert (b = rsub (radd ij jl) il) as -> by (apply (value_unique N Dm h [i; j; l]); [exact Hb|apply H; auto; apply R2]).
  assert (e = rsub (radd ik kl) il) as -> by (apply (value_unique N Dm h [i; k; l]); [exact He|apply H; auto; apply R3]).
  assert (f = rsub (radd jk kl) jl) as -> by (apply (value_unique N Dm h [j; k; l]); [exact Hf|apply H; auto; apply R4]).
  ring.
Qed.
End Square.

(** ** The cocycle tests *)
Section Tests.
Context {D : Type} (ltD : D -> D -> bool) (dm : list (list D)) (t : D) (N Dm : nat).
Hypothesis Hsq : square dm.
Notation n := (length dm).
Hypothesis HN : n <= N.
Notation T := (combinatorial_number_system_table N Dm).
Notation rl := (rl ltD dm t).

Definition good3 (c : list Z) (s : list nat) : bool :=
  match s with
  | [i; j; k] => (nth (rank [i; j]) c 0 + nth (rank [j; k]) c 0 - nth (rank [i; k]) c 0 =? 0)%Z
  | _ => true end.

Lemma is_one_cocycle_loop c : 2 <= Dm -> length c = comb n 2 ->
  exists b m, is_one_cocycle ltD c dm t T = Ok (b, m) /\
    b = forallb (good3 c) (rl 2) /\ (m = None <-> b = true).
Proof.
  intros HD Lc; unfold is_one_cocycle; rewrite for_triangles_ok by exact Hsq.
  match goal with |- context [for_in _ ?bd _] => set (body := bd) end.
  destruct (for_in_inv (rl 2) body (fun pre st => fst st = forallb (good3 c) pre /\
    (snd st = None <-> fst st = true)) (true, None)) as ([b m] & E & HB & HM).
  - split; [reflexivity|tauto].
  - intros pre s post [b m] El (HB & HM); cbn [fst snd] in *.
    assert (Hs : simplex n 2 s).
    { apply (rl_simplex ltD dm t 2); rewrite El; apply in_or_app; right; left; reflexivity. }
    pose proof Hs as (L & _ & _); destruct s as [|i [|j [|k [|? ?]]]]; try discriminate L.
    destruct (tri_faces n i j k Hs) as (S1 & S2 & S3); apply simplex3 in Hs.
    unfold body; cbn [on3]; rewrite !(d1_ok dm N Dm HN) by lia; cbn [bind].
    rewrite !(get_ok MemoryUnsafe c _ 0%Z) by (rewrite Lc; apply (rank_lt_d n 1); assumption); cbn [bind].
    rewrite forallb_app; cbn [forallb good3]; rewrite andb_true_r, <- HB.
    destruct (_ + _ - _ =? 0)%Z; cbn [negb].
    + exists (b, m); split; [reflexivity|]. cbn [fst snd]; rewrite andb_true_r; split; [reflexivity|exact HM].
    + destruct (dist_at_ok dm Hsq i j) as [x1 E1]; [lia..|]; destruct (dist_at_ok dm Hsq j k) as [x2 E2]; [lia..|];
      destruct (dist_at_ok dm Hsq i k) as [x3 E3]; [lia..|]; rewrite E1, E2, E3; cbn [bind].
      eexists; split; [reflexivity|]. cbn [fst snd]; rewrite andb_false_r; split; [reflexivity|].
      destruct m; cbn; split; discriminate.
  - exists b, m; split; [exact E|split; [exact HB|exact HM]].
Qed.

Lemma good3_spec c : 2 <= Dm -> length c = comb n 2 ->
  (forallb (good3 c) (rl 2) = true <-> one_cocycle ltD dm t T c).
Proof.
  intros HD Lc; rewrite forallb_forall; unfold one_cocycle; split.
  - intros H i j k a b e Hr Ha Hb He; specialize (H [i; j; k]).
    rewrite rl_rips in H by exact Hsq; specialize (H Hr); cbn [good3] in H; apply Z.eqb_eq in H.
    destruct Hr as [Hs _]; destruct (tri_faces n i j k Hs) as (S1 & S2 & S3).
    rewrite (value_at_rank dm N Dm HN c 1) in Ha, Hb, He by (assumption || lia).
    rewrite (nth_error_nth _ _ _ Ha), (nth_error_nth _ _ _ Hb), (nth_error_nth _ _ _ He) in H; exact H.
  - intros H s Hs; pose proof (rl_simplex ltD dm t 2 s Hs) as S0; pose proof S0 as (L & _ & _).
    destruct s as [|i [|j [|k [|? ?]]]]; try discriminate L.
    destruct (tri_faces n i j k S0) as (S1 & S2 & S3).
    destruct (value_exists dm N Dm HN c 1 [i; j]) as [a Ha]; [lia|exact S1|exact Lc|].
    destruct (value_exists dm N Dm HN c 1 [j; k]) as [b Hb]; [lia|exact S2|exact Lc|].
    destruct (value_exists dm N Dm HN c 1 [i; k]) as [e He]; [lia|exact S3|exact Lc|].
    rewrite rl_rips in Hs by exact Hsq.
    specialize (H i j k a b e Hs Ha Hb He); cbn [good3]; apply Z.eqb_eq.
    rewrite (value_at_rank dm N Dm HN c 1) in Ha, Hb, He by (assumption || lia).
    rewrite (nth_error_nth _ _ _ Ha), (nth_error_nth _ _ _ Hb), (nth_error_nth _ _ _ He); exact H.
Qed.

(** The second result of the 1-cocycle test. *)
Definition sides (s : list nat) (d : D) : Prop := match s with [i; j; k] => side_length dm i j k d | _ => False end.
Lemma dist_at_entry i j x : dist_at dm i j = Ok x -> exists row, nth_error dm i = Some row /\ nth_error row j = Some x.
Proof.
  unfold dist_at, get. destruct (nth_error dm i) as [row|] eqn:E1; [|discriminate]. cbn [bind]. destruct (nth_error row j) as [y|] eqn:E2; [|discriminate].
  intros E; injection E as <-. exists row; auto.
Qed.
Lemma min_opt_spec a x : weak_order ltD -> exists m, min_opt ltD a x = Some m /\ (m = x \/ a = Some m) /\ ltD x m = false /\
  forall y, a = Some y -> forall d, ltD d y = false -> ltD d m = false.
Proof.
  intros [As Ng]. assert (Irr : forall u, ltD u u = false) by (intros u; destruct (ltD u u) eqn:E; [specialize (As u u E); congruence|reflexivity]).
  destruct a as [y|]; cbn [min_opt]; [|exists x; repeat split; auto; discriminate].
  destruct (ltD x y) eqn:E; eexists; (split; [reflexivity|]); repeat split; auto.
  - intros y' Ey d Hd; injection Ey as <-. apply (Ng d y x Hd), As, E.
  - intros y' Ey d Hd; injection Ey as <-. exact Hd.
Qed.
Lemma is_one_cocycle_first c b m : 2 <= Dm -> length c = comb n 2 -> weak_order ltD ->
  is_one_cocycle ltD c dm t T = Ok (b, Some m) ->
  (exists s, In s (rl 2) /\ good3 c s = false /\ sides s m) /\
  (forall s d, In s (rl 2) -> good3 c s = false -> sides s d -> ltD d m = false).
Proof.
  intros HD Lc WO; unfold is_one_cocycle; rewrite for_triangles_ok by exact Hsq.
  match goal with |- context [for_in _ ?bd _] => set (body := bd) end.
  destruct (for_in_inv (rl 2) body (fun pre st =>
    (snd st = None -> forall s, In s pre -> good3 c s = true) /\
    (forall m, snd st = Some m -> (exists s, In s pre /\ good3 c s = false /\ sides s m) /\
       (forall s d, In s pre -> good3 c s = false -> sides s d -> ltD d m = false))) (true, None)) as ([b' m'] & E & HN0 & HM).
  - split; [intros _ s []|discriminate].
  - intros pre s post [b' m'] El (H0 & HM); cbn [fst snd] in *.
    assert (Hs : simplex n 2 s).
    { apply (rl_simplex ltD dm t 2); rewrite El; apply in_or_app; right; left; reflexivity. }
    pose proof Hs as (L & _ & _); destruct s as [|i [|j [|k [|? ?]]]]; try discriminate L.
    destruct (tri_faces n i j k Hs) as (S1 & S2 & S3); apply simplex3 in Hs.
    unfold body; cbn [on3]; rewrite !(d1_ok dm N Dm HN) by lia; cbn [bind].
    rewrite !(get_ok MemoryUnsafe c _ 0%Z) by (rewrite Lc; apply (rank_lt_d n 1); assumption); cbn [bind].
    destruct (_ + _ - _ =? 0)%Z eqn:EG; cbn [negb].
    + exists (b', m'); split; [reflexivity|]. cbn [fst snd]; split.
      * intros Em s Hin. apply in_app_or in Hin as [Hin|[<-|[]]]; [exact (H0 Em s Hin)|exact EG].
      * intros q Eq. destruct (HM q Eq) as [(s & I1 & I2 & I3) HL]. split; [exists s; split; [apply in_or_app; auto|auto]|].
        intros s' d Hin Hf Hd. apply in_app_or in Hin as [Hin|[<-|[]]]; [exact (HL s' d Hin Hf Hd)|]. unfold good3 in Hf; congruence.
    + destruct (dist_at_ok dm Hsq i j) as [x1 E1]; [lia..|]; destruct (dist_at_ok dm Hsq j k) as [x2 E2]; [lia..|];
      destruct (dist_at_ok dm Hsq i k) as [x3 E3]; [lia..|]; rewrite E1, E2, E3; cbn [bind].
      eexists; split; [reflexivity|]. cbn [fst snd].
      apply dist_at_entry in E1 as (r1 & A1 & B1), E2 as (r2 & A2 & B2), E3 as (r3 & A3 & B3).
      destruct (min_opt_spec m' x1 WO) as (m1 & -> & O1 & L1 & G1).
      destruct (min_opt_spec (Some m1) x2 WO) as (m2 & -> & O2 & L2 & G2).
      destruct (min_opt_spec (Some m2) x3 WO) as (m3 & -> & O3 & L3 & G3).
      split; [discriminate|]. intros q Eq; injection Eq as <-.
      assert (T1 : sides [i; j; k] x1) by (exists i, j, r1; repeat split; auto; left; reflexivity).
      assert (T2 : sides [i; j; k] x2) by (exists j, k, r2; repeat split; auto; right; left; reflexivity).
      assert (T3 : sides [i; j; k] x3) by (exists i, k, r3; repeat split; auto; right; right; left; reflexivity).
      assert (Here : forall d, sides [i; j; k] d -> d = x1 \/ d = x2 \/ d = x3).
      { intros d (u & v & row & [Huv|[Huv|[Huv|[]]]] & Q1 & Q2); injection Huv as <- <-; [left|right; left|right; right]; congruence. }
      split.
      * destruct O3 as [-> | O3]; [exists [i; j; k]; split; [apply in_or_app; right; left; reflexivity|auto]|]. injection O3 as ->.
        destruct O2 as [-> | O2]; [exists [i; j; k]; split; [apply in_or_app; right; left; reflexivity|auto]|]. injection O2 as ->.
        destruct O1 as [-> | O1]; [exists [i; j; k]; split; [apply in_or_app; right; left; reflexivity|auto]|].
        destruct (HM _ O1) as [(s & I1 & I2 & I3) _]. exists s; split; [apply in_or_app; auto|auto].
      * assert (Down : forall d, ltD d m1 = false -> ltD d m3 = false) by (intros d Hd; apply (G3 m2 eq_refl), (G2 m1 eq_refl), Hd).
        intros s d Hin Hf Hd. apply in_app_or in Hin as [Hin|[<-|[]]].
        -- destruct m' as [y|].
           ++ apply Down, (G1 y eq_refl), (proj2 (HM y eq_refl) s d Hin Hf Hd).
           ++ rewrite (H0 eq_refl s Hin) in Hf; discriminate.
        -- destruct (Here d Hd) as [-> | [-> | ->]]; [apply Down, L1|apply (G3 m2 eq_refl), L2|exact L3].
  - intros E2. assert (E3 : Ok (b', m') = Ok (b, Some m)) by (rewrite <- E; exact E2). injection E3 as -> ->. apply HM; reflexivity.
Qed.

Lemma good3_failing c i j k : 2 <= Dm -> length c = comb n 2 ->
  (failing ltD dm t T c i j k <-> In [i; j; k] (rl 2) /\ good3 c [i; j; k] = false).
Proof.
  intros HD Lc. unfold failing. rewrite rl_rips by exact Hsq. split.
  - intros (Hr & a & b & e & Ha & Hb & He & Ne). split; [exact Hr|].
    destruct Hr as [Hs _]; destruct (tri_faces n i j k Hs) as (S1 & S2 & S3).
    rewrite (value_at_rank dm N Dm HN c 1) in Ha, Hb, He by (assumption || lia).
    cbn [good3]. rewrite (nth_error_nth _ _ _ Ha), (nth_error_nth _ _ _ Hb), (nth_error_nth _ _ _ He). apply Z.eqb_neq, Ne.
  - intros (Hr & Hg). split; [exact Hr|]. destruct Hr as [S0 _]. destruct (tri_faces n i j k S0) as (S1 & S2 & S3).
    destruct (value_exists dm N Dm HN c 1 [i; j]) as [a Ha]; [lia|exact S1|exact Lc|].
    destruct (value_exists dm N Dm HN c 1 [j; k]) as [b Hb]; [lia|exact S2|exact Lc|].
    destruct (value_exists dm N Dm HN c 1 [i; k]) as [e He]; [lia|exact S3|exact Lc|].
    exists a, b, e. split; [exact Ha|]. split; [exact Hb|]. split; [exact He|]. cbn [good3] in Hg. apply Z.eqb_neq in Hg.
    rewrite (value_at_rank dm N Dm HN c 1) in Ha, Hb, He by (assumption || lia).
    rewrite (nth_error_nth _ _ _ Ha), (nth_error_nth _ _ _ Hb), (nth_error_nth _ _ _ He) in Hg; exact Hg.
Qed.


Definition good4 (c : list Z) (s : list nat) : bool :=
  match s with
  | [i; j; k; l] => (nth (rank [i; j; k]) c 0 - nth (rank [i; j; l]) c 0 +
                     nth (rank [i; k; l]) c 0 - nth (rank [j; k; l]) c 0 =? 0)%Z
  | _ => true end.

Lemma is_two_cocycle_loop c : 3 <= Dm -> length c = comb n 3 ->
  is_two_cocycle ltD c dm t T = Ok (forallb (good4 c) (rl 3)).
Proof.
  intros HD Lc; unfold is_two_cocycle; rewrite for_tetrahedra_ok by exact Hsq.
  match goal with |- context [for_in _ ?bd _] => set (body := bd) end.
  destruct (for_in_inv (rl 3) body (fun pre st => st = forallb (good4 c) pre) true) as (b & E & HB).
  - reflexivity.
  - intros pre s post b El HB.
    assert (Hs : simplex n 3 s).
    { apply (rl_simplex ltD dm t 3); rewrite El; apply in_or_app; right; left; reflexivity. }
    pose proof Hs as (L & _ & _); destruct s as [|i [|j [|k [|l [|? ?]]]]]; try discriminate L.
    destruct (tet_faces n i j k l Hs) as (S1 & S2 & S3 & S4); apply simplex4 in Hs.
    unfold body; cbn [on4]; rewrite !(d2_ok dm N Dm HN) by lia; cbn [bind].
    rewrite !(get_ok MemoryUnsafe c _ 0%Z) by (rewrite Lc; apply (rank_lt_d n 2); assumption); cbn [bind].
    rewrite forallb_app; cbn [forallb good4]; rewrite andb_true_r, <- HB.
    destruct (_ - _ + _ - _ =? 0)%Z; cbn [negb]; eexists; (split; [reflexivity|cbn beta]).
    + rewrite andb_true_r; reflexivity.
    + rewrite andb_false_r; reflexivity.
  - rewrite E, HB; reflexivity.
Qed.

Lemma good4_spec c : 3 <= Dm -> length c = comb n 3 ->
  (forallb (good4 c) (rl 3) = true <-> two_cocycle ltD dm t T c).
Proof.
  intros HD Lc; rewrite forallb_forall; unfold two_cocycle; split.
  - intros H i j k l a b e f Hr Ha Hb He Hf; specialize (H [i; j; k; l]).
    rewrite rl_rips in H by exact Hsq; specialize (H Hr); cbn [good4] in H; apply Z.eqb_eq in H.
    destruct Hr as [Hs _]; destruct (tet_faces n i j k l Hs) as (S1 & S2 & S3 & S4).
    rewrite (value_at_rank dm N Dm HN c 2) in Ha, Hb, He, Hf by (assumption || lia).
    rewrite (nth_error_nth _ _ _ Ha), (nth_error_nth _ _ _ Hb), (nth_error_nth _ _ _ He), (nth_error_nth _ _ _ Hf) in H; exact H.
  - intros H s Hs; pose proof (rl_simplex ltD dm t 3 s Hs) as S0; pose proof S0 as (L & _ & _).
    destruct s as [|i [|j [|k [|l [|? ?]]]]]; try discriminate L.
    destruct (tet_faces n i j k l S0) as (S1 & S2 & S3 & S4).
    destruct (value_exists dm N Dm HN c 2 [i; j; k]) as [a Ha]; [lia|exact S1|exact Lc|].
    destruct (value_exists dm N Dm HN c 2 [i; j; l]) as [b Hb]; [lia|exact S2|exact Lc|].
    destruct (value_exists dm N Dm HN c 2 [i; k; l]) as [e He]; [lia|exact S3|exact Lc|].
    destruct (value_exists dm N Dm HN c 2 [j; k; l]) as [f Hf]; [lia|exact S4|exact Lc|].
    rewrite rl_rips in Hs by exact Hsq.
    specialize (H i j k l a b e f Hs Ha Hb He Hf); cbn [good4]; apply Z.eqb_eq.
    rewrite (value_at_rank dm N Dm HN c 2) in Ha, Hb, He, Hf by (assumption || lia).
    rewrite (nth_error_nth _ _ _ Ha), (nth_error_nth _ _ _ Hb), (nth_error_nth _ _ _ He), (nth_error_nth _ _ _ Hf); exact H.
Qed.
End Tests.

(** ** Bounds and lookups used by the property files *)
Lemma edges_fit n : (Z.of_nat n <= 65536)%Z -> (Z.of_nat (comb n 2) <= 2 ^ 31)%Z.
Proof. intros H; pose proof (comb_2 n); nia. Qed.

Lemma tri_fit n : (Z.of_nat n <= 2345)%Z -> (Z.of_nat (comb n 3) <= 2 ^ 31)%Z.
Proof. intros H; pose proof (triangles_fit_int32 n H); lia. Qed.

Lemma is_binomial_comb n k b : is_binomial n k b -> b = comb n k.
Proof.
  intros [[H1 H2]|[H1 H2]]; destruct (comb_is_binomial n k) as [[H3 H4]|[H3 H4]]; try lia.
  apply Nat.mul_cancel_r with (p := fact k * fact (n - k)); [|congruence].
  pose proof (lt_O_fact k); pose proof (lt_O_fact (n - k)); nia.
Qed.

Lemma simplex_of_number n d r : r < comb n (S d) -> exists s, simplex n d s /\ rank s = r.
Proof.
  intros H; destruct (rank_surj n (S d) r H) as (s & L & S1 & F & R).
  exists s; split; [split; [exact L|split; assumption]|exact R].
Qed.

Lemma nth_error_ext_len {A} (l l' : list A) : length l = length l' ->
  (forall r, r < length l -> nth_error l r = nth_error l' r) -> l = l'.
Proof.
  revert l'; induction l as [|x l IH]; intros [|y l'] L H; try discriminate L; [reflexivity|].
  pose proof (H 0 ltac:(cbn; lia)) as H0; injection H0 as ->; f_equal; apply IH.
  - injection L as L; exact L.
  - intros r Hr; apply (H (S r)); cbn; lia.
Qed.

Lemma some_lt {A} (l : list A) r x : nth_error l r = Some x -> r < length l.
Proof. intros H; apply nth_error_Some; congruence. Qed.

