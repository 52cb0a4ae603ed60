(** RepairProofs.v -- rounding, linearity, and the repair loop. *)
From Coq Require Import Sorted String.
From Verif Require Import Base BaseProofs CombinatorialModel SpecSimplex CombinatorialProofs
  DeltaModel SpecRips RipsProofs DeltaProofs DeltaFacts PropDelta RealBase RepairModel SpecRepair.
Local Open Scope list_scope.
Notation length := List.length.

(** ** Rounding a near solution *)
Definition row_entries (M : sparse) (r : nat) := filter (fun e => fst (fst e) =? r) (s_entries M).
Definition weight (es : list (nat * nat * Z)) : Z := fold_right Z.add 0%Z (map (fun e => Z.abs (snd e)) es).

Lemma row_val_cons_R e es (x : list R) :
  row_val (K := Rring) (e :: es) x = (IZR (snd e) * nth (snd (fst e)) x 0 + row_val (K := Rring) es x)%R.
Proof. unfold row_val, rsum; cbn [map fold_right]; rewrite rofZ_R; reflexivity. Qed.
Lemma row_val_cons_Z e es (x : list Z) :
  row_val (K := Zring) (e :: es) x = (snd e * nth (snd (fst e)) x 0 + row_val (K := Zring) es x)%Z.
Proof. unfold row_val, rsum; cbn [map fold_right]; rewrite rofZ_Z; reflexivity. Qed.
Lemma weight_cons e es : weight (e :: es) = (Z.abs (snd e) + weight es)%Z.
Proof. reflexivity. Qed.

Lemma row_val_near es (x : list R) (k : list Z) eps :
  (forall c, (Rabs (nth c x 0 - IZR (nth c k 0%Z)) <= eps)%R) ->
  (Rabs (row_val (K := Rring) es x - IZR (row_val (K := Zring) es k)) <= IZR (weight es) * eps)%R.
Proof.
  intros H; induction es as [|e es IH].
  - cbn. rewrite Rminus_0_r, Rabs_R0; lra.
  - rewrite row_val_cons_R, row_val_cons_Z, weight_cons, !plus_IZR, mult_IZR, abs_IZR.
    change (carrier Rring) with R in *; change (carrier Zring) with Z in *.
    revert IH; generalize (row_val (K := Rring) es x) (row_val (K := Zring) es k) (weight es).
    change (carrier Rring) with R in *; change (carrier Zring) with Z in *.
    intros A B W IH.
    specialize (H (snd (fst e))).
    generalize dependent (nth (snd (fst e)) x 0%R); generalize dependent (nth (snd (fst e)) k 0%Z).
    intros kv xv H.
    replace (IZR (snd e) * xv + A - (IZR (snd e) * IZR kv + IZR B))%R
      with (IZR (snd e) * (xv - IZR kv) + (A - IZR B))%R by ring.
    eapply Rle_trans; [apply Rabs_triang|]. rewrite Rabs_mult.
    pose proof (Rabs_pos (IZR (snd e))).
    assert (Rabs (IZR (snd e)) * Rabs (xv - IZR kv) <= Rabs (IZR (snd e)) * eps)%R by (apply Rmult_le_compat_l; assumption).
    lra.
Qed.

Lemma rint_all x eps : (0 <= eps < 1 / 2)%R ->
  Forall (fun v => exists k, (Rabs (v - IZR k) <= eps)%R) x ->
  forall c, (Rabs (nth c x 0 - IZR (nth c (map rint x) 0%Z)) <= eps)%R.
Proof.
  intros He F c; destruct (Nat.lt_ge_cases c (length x)) as [L|L].
  - rewrite (nth_indep (map rint x) 0%Z (rint 0)) by (rewrite map_length; exact L); rewrite map_nth.
    rewrite Forall_forall in F; destruct (F (nth c x 0%R)) as [k Hk]; [apply nth_In; exact L|].
    rewrite (rint_unique _ k) by lra; exact Hk.
  - rewrite !nth_overflow by (rewrite ?map_length; exact L).
    rewrite Rminus_0_r, Rabs_R0; lra.
Qed.

Lemma list_eq_nth {A} (l l' : list A) : length l = length l' ->
  (forall r, r < length l -> nth_error l r = nth_error l' r) -> l = l'.
Proof. apply nth_error_ext_len. Qed.

Lemma Forall2_nth_error {A B} (P : A -> B -> Prop) l l' : Forall2 P l l' <->
  length l = length l' /\ forall r x y, nth_error l r = Some x -> nth_error l' r = Some y -> P x y.
Proof.
  split.
  - induction 1 as [|x y l l' H H1 [L IH]]; [split; [reflexivity|intros [|r]; discriminate]|].
    split; [cbn; congruence|]. intros [|r] u v; cbn; [intros E1 E2; injection E1 as <-; injection E2 as <-; exact H|apply IH].
  - revert l'; induction l as [|x l IH]; intros [|y l'] [L H]; try discriminate L; constructor.
    + apply (H 0); reflexivity.
    + apply IH; split; [injection L; auto|]. intros r; apply (H (S r)).
Qed.

Lemma rounding_exact m M y x eps tol :
  (forall r, r < s_rows M -> (weight (row_entries M r) <= m)%Z) ->
  (0 <= eps < 1 / 2)%R -> (IZR m * eps + tol < 1)%R -> near_solution eps tol M y x ->
  matvec (K := Zring) M (map rint x) = Ok y.
Proof.
  intros Hw He Ht (Lx & F & w & Ew & F2).
  assert (Lk : length (map rint x) = s_cols M) by (rewrite map_length; exact Lx).
  destruct (matvec_ok (K := Zring) M (map rint x) Lk) as (z & Ez & Lz & Hz).
  destruct (matvec_ok (K := Rring) M x Lx) as (w' & Ew' & Lw & Hw').
  rewrite Ew' in Ew; apply Ok_inj in Ew; subst w'.
  rewrite Ez; f_equal. apply Forall2_nth_error in F2; destruct F2 as [L2 F2].
  change (carrier Rring) with R in *; change (carrier Zring) with Z in *.
  apply list_eq_nth; [congruence|]. intros r Hr; rewrite Lz in Hr.
  rewrite Hz by exact Hr.
  destruct (nth_error y r) as [yr|] eqn:Ey; [|apply nth_error_None in Ey; lia].
  specialize (F2 r _ yr (Hw' r Hr) Ey). f_equal; apply IZR_eq_of_close.
  pose proof (row_val_near (row_entries M r) x (map rint x) eps (rint_all x eps He F)) as N1.
  specialize (Hw r Hr); apply IZR_le in Hw.
  assert (IZR (weight (row_entries M r)) * eps <= IZR m * eps)%R by (apply Rmult_le_compat_r; lra).
  unfold row_entries in *.
  set (a := row_val (K := Rring) _ _) in *. set (b := row_val (K := Zring) _ _) in *.
  change (carrier Rring) with R in *; change (carrier Zring) with Z in *.
  replace (IZR b - IZR yr)%R with ((a - IZR yr) + - (a - IZR b))%R by ring.
  eapply Rle_lt_trans; [apply Rabs_triang|]. rewrite Rabs_Ropp. lra.
Qed.

(** ** Linearity over Z *)
Definition zsub (p : Z) (c k : list Z) : list Z := map (fun q => (fst q - p * snd q)%Z) (combine c k).

Lemma nth_zsub p c k i : length c = length k -> nth i (zsub p c k) 0%Z = (nth i c 0 - p * nth i k 0)%Z.
Proof.
  revert k i; unfold zsub; induction c as [|x c IH]; intros [|y k] i L; try discriminate L.
  - destruct i; cbn; lia.
  - destruct i; cbn; [reflexivity|]. apply IH; injection L; auto.
Qed.

Lemma row_val_zsub p es c k : length c = length k ->
  row_val (K := Zring) es (zsub p c k) = (row_val (K := Zring) es c - p * row_val (K := Zring) es k)%Z.
Proof.
  intros L; induction es as [|e es IH]; [cbn; ring|].
  rewrite !row_val_cons_Z, IH, (nth_zsub p c k _ L).
  match goal with |- @eq _ ?a ?b => change (@eq Z a b) end; ring.
Qed.

Lemma zsub_length p c k : length c = length k -> length (zsub p c k) = length c.
Proof. intros L; unfold zsub; rewrite map_length, combine_length; lia. Qed.

Lemma zsub_congruent p c k : length c = length k -> congruent_mod p c (zsub p c k).
Proof.
  unfold congruent_mod, zsub; revert k; induction c as [|x c IH]; intros [|y k] L; try discriminate L; constructor.
  - cbn [fst snd]; exists y; ring.
  - apply IH; injection L; auto.
Qed.

Lemma congruent_zsub p c c' : congruent_mod p c c' -> exists k, length k = length c /\ c' = zsub p c k.
Proof.
  induction 1 as [|x y c c' [q Hq] H (k & L & ->)]; [exists []; split; reflexivity|].
  exists (q :: k); split; [cbn; congruence|]. unfold zsub; cbn [combine map fst snd]; f_equal; lia.
Qed.

Lemma Forall_nth_error {A} (P : A -> Prop) l : Forall P l <-> forall r x, nth_error l r = Some x -> P x.
Proof.
  rewrite Forall_forall; split.
  - intros H r x E; apply H; eapply nth_error_In; exact E.
  - intros H x Hx; apply In_nth_error in Hx; destruct Hx as [r E]; exact (H r x E).
Qed.

Lemma matvec_len M (c : list Z) d : matvec (K := Zring) M c = Ok d -> length c = s_cols M.
Proof.
  unfold matvec; intros Ed; destruct (_ =? s_cols M) eqn:E; [apply Nat.eqb_eq in E; exact E|discriminate Ed].
Qed.

(** Subtracting [p] times a solution of [M k = (M c) / p] from [c] kills [M c]. *)
Lemma repair_zero p M c k d : p <> 0%Z ->
  matvec (K := Zring) M c = Ok d -> Forall (fun v => (p | v)%Z) d ->
  (matvec (K := Zring) M k = Ok (map (fun v => (v / p)%Z) d) /\ length k = length c) <->
  (length k = length c /\ exists z, matvec (K := Zring) M (zsub p c k) = Ok z /\ Forall (fun v => v = 0%Z) z).
Proof.
  intros Hp Ed Fd.
  pose proof (matvec_len M c d Ed) as Lc.
  destruct (matvec_ok (K := Zring) M c Lc) as (d' & Ed' & Ld & Hd).
  rewrite Ed in Ed'; apply Ok_inj in Ed'; subst d'.
  change (carrier Zring) with Z in *; rewrite Forall_nth_error in Fd.
  split.
  - intros [Ek Lk]; split; [exact Lk|].
    assert (Lk' : length k = s_cols M) by congruence.
    assert (Ls : length (zsub p c k) = s_cols M) by (rewrite zsub_length; congruence).
    destruct (matvec_ok (K := Zring) M k Lk') as (y & Ey & Ly & Hy).
    destruct (matvec_ok (K := Zring) M (zsub p c k) Ls) as (z & Ez & Lz & Hz).
    rewrite Ek in Ey; apply Ok_inj in Ey; subst y.
    exists z; split; [exact Ez|]. apply Forall_nth_error; intros r x Hx.
    assert (Hr : r < s_rows M) by (rewrite <- Lz; exact (some_lt _ _ _ Hx)).
    change (carrier Zring) with Z in *.
    rewrite Hz in Hx by exact Hr; injection Hx as <-.
    specialize (Hy r Hr); specialize (Hd r Hr); specialize (Fd _ _ Hd).
    rewrite nth_error_map, Hd in Hy; cbn [option_map] in Hy; injection Hy as Hy.
    rewrite row_val_zsub, <- Hy by congruence.
    destruct Fd as [q Eq]; rewrite Eq, Z.div_mul by exact Hp; ring.
  - intros (Lk & z & Ez & Fz); split; [|exact Lk].
    assert (Lk' : length k = s_cols M) by congruence.
    assert (Ls : length (zsub p c k) = s_cols M) by (rewrite zsub_length; congruence).
    destruct (matvec_ok (K := Zring) M k Lk') as (y & Ey & Ly & Hy).
    destruct (matvec_ok (K := Zring) M (zsub p c k) Ls) as (z' & Ez' & Lz & Hz).
    rewrite Ez in Ez'; apply Ok_inj in Ez'; subst z'.
    rewrite Ey; f_equal; change (carrier Zring) with Z in *.
    apply list_eq_nth; [rewrite map_length; congruence|]. intros r Hr; rewrite Ly in Hr.
    rewrite nth_error_map, (Hy r Hr), (Hd r Hr); cbn [option_map]; f_equal.
    specialize (Hz r Hr); specialize (Hd r Hr); specialize (Fd _ _ Hd).
    rewrite Forall_nth_error in Fz; specialize (Fz _ _ Hz).
    rewrite row_val_zsub in Fz by congruence.
    match goal with |- @eq _ ?a ?b => change (@eq Z a b) end.
    apply Z.div_unique_exact; [exact Hp|lia].
Qed.

(** ** The matrices at hand *)
Section Mats.
Context {D : Type} (ltD : D -> D -> bool) (dm : list (list D)) (t : D) (N Dm : nat).
Hypothesis Hsq : square dm.
Hypothesis HN : length dm <= N.
Notation n := (length dm).
Notation T := (combinatorial_number_system_table N Dm).

Lemma rows1_P (P : Z -> Prop) junk M c w : 2 <= Dm -> (Z.of_nat n <= 2345)%Z ->
  make_delta1_compact ltD junk dm t T = Ok M -> length c = comb n 2 ->
  matvec (K := Zring) M c = Ok w ->
  (Forall P w <-> forall i j k a b e, rips ltD dm t 2 [i; j; k] ->
    value_at T c [i; j] a -> value_at T c [j; k] b -> value_at T c [i; k] e -> P (a + b - e)%Z).
Proof.
  intros HD Hn E Lc Ew.
  destruct (C12_delta1_compact ltD dm t N Dm Hsq HN HD Hn) as (M' & tris & HM & _ & HT & HK).
  rewrite HM in E; apply Ok_inj in E; subst M'.
  assert (B : length c = comb n 2) by exact Lc.
  destruct (HK Zring c (eq_rect_r (is_binomial n 2) (comb_is_binomial n 2) B)) as (w' & Ew' & Lw & Hw).
  change (carrier Zring) with Z in *.
  rewrite Ew in Ew'; apply Ok_inj in Ew'; subst w'. rewrite Forall_nth_error; split.
  - intros F i j k a b e Hr Ha Hb He.
    apply HT in Hr; apply In_nth_error in Hr; destruct Hr as [r Hr].
    exact (F r _ (Hw r i j k a b e Hr Ha Hb He)).
  - intros H r x Hx.
    assert (R : r < length tris) by (rewrite <- Lw; exact (some_lt _ _ _ Hx)).
    destruct (nth_error tris r) as [s|] eqn:Es; [|apply nth_error_None in Es; lia].
    assert (Hr : rips ltD dm t 2 s) by (apply HT; eapply nth_error_In; exact Es).
    pose proof Hr as [Hs _]; pose proof Hs as (L & _ & _).
    destruct s as [|i [|j [|k [|? ?]]]]; try discriminate L.
    destruct (tri_faces _ i j k Hs) as (S1 & S2 & S3).
    destruct (value_exists dm N Dm HN c 1 [i; j]) as [a Ha]; [lia|exact S1|exact Lc|].
    destruct (value_exists dm N Dm HN c 1 [j; k]) as [b Hb]; [lia|exact S2|exact Lc|].
    destruct (value_exists dm N Dm HN c 1 [i; k]) as [e He]; [lia|exact S3|exact Lc|].
    specialize (Hw r i j k a b e Es Ha Hb He); rewrite Hw in Hx; injection Hx as <-.
    exact (H i j k a b e Hr Ha Hb He).
Qed.

Lemma rows2_P (P : Z -> Prop) junk M c w : 3 <= Dm -> (Z.of_nat n <= 2345)%Z ->
  (forall L, NoDup L -> (forall s, In s L -> rips ltD dm t 3 s) -> (Z.of_nat (length L) <= 2 ^ 31)%Z) ->
  make_delta2_compact ltD junk dm t T = Ok M -> length c = comb n 3 ->
  matvec (K := Zring) M c = Ok w ->
  (Forall P w <-> forall i j k l a b e f, rips ltD dm t 3 [i; j; k; l] ->
    value_at T c [i; j; k] a -> value_at T c [i; j; l] b -> value_at T c [i; k; l] e ->
    value_at T c [j; k; l] f -> P (a - b + e - f)%Z).
Proof.
  intros HD Hn Hl E Lc Ew.
  destruct (C13_delta2_compact ltD dm t N Dm Hsq HN HD Hn Hl) as (M' & tets & HM & _ & HT & HK).
  rewrite HM in E; apply Ok_inj in E; subst M'.
  assert (B : length c = comb n 3) by exact Lc.
  destruct (HK Zring c (eq_rect_r (is_binomial n 3) (comb_is_binomial n 3) B)) as (w' & Ew' & Lw & Hw).
  change (carrier Zring) with Z in *.
  rewrite Ew in Ew'; apply Ok_inj in Ew'; subst w'. rewrite Forall_nth_error; split.
  - intros F i j k l a b e f Hr Ha Hb He Hf.
    apply HT in Hr; apply In_nth_error in Hr; destruct Hr as [r Hr].
    exact (F r _ (Hw r i j k l a b e f Hr Ha Hb He Hf)).
  - intros H r x Hx.
    assert (R : r < length tets) by (rewrite <- Lw; exact (some_lt _ _ _ Hx)).
    destruct (nth_error tets r) as [s|] eqn:Es; [|apply nth_error_None in Es; lia].
    assert (Hr : rips ltD dm t 3 s) by (apply HT; eapply nth_error_In; exact Es).
    pose proof Hr as [Hs _]; pose proof Hs as (L & _ & _).
    destruct s as [|i [|j [|k [|l [|? ?]]]]]; try discriminate L.
    destruct (tet_faces _ i j k l Hs) as (S1 & S2 & S3 & S4).
    destruct (value_exists dm N Dm HN c 2 [i; j; k]) as [a Ha]; [lia|exact S1|exact Lc|].
    destruct (value_exists dm N Dm HN c 2 [i; j; l]) as [b Hb]; [lia|exact S2|exact Lc|].
    destruct (value_exists dm N Dm HN c 2 [i; k; l]) as [e He]; [lia|exact S3|exact Lc|].
    destruct (value_exists dm N Dm HN c 2 [j; k; l]) as [f Hf]; [lia|exact S4|exact Lc|].
    specialize (Hw r i j k l a b e f Es Ha Hb He Hf); rewrite Hw in Hx; injection Hx as <-.
    exact (H i j k l a b e f Hr Ha Hb He Hf).
Qed.

Lemma weight1 junk M r : 2 <= Dm -> (Z.of_nat n <= 2345)%Z -> make_delta1_compact ltD junk dm t T = Ok M ->
  s_cols M = comb n 2 /\ (r < s_rows M -> (weight (row_entries M r) <= 3)%Z).
Proof.
  intros HD Hn E; rewrite (delta1_compact_ok ltD junk dm t N Dm Hsq HN) in E; [|lia|apply tri_fit; exact Hn].
  apply Ok_inj in E; subst M; cbn [s_rows s_cols]; split; [reflexivity|]. intros Hr.
  unfold row_entries; cbn [s_entries].
  destruct (nth_error (rl ltD dm t 2) r) as [s|] eqn:Es; [|apply nth_error_None in Es; lia].
  rewrite (block_num ltD dm t ent1 2 r s); [|intros c u e0; apply ent1_key|exact Es].
  pose proof (rl_simplex ltD dm t 2 s (nth_error_In _ _ Es)) as (L & _ & _).
  destruct s as [|i [|j [|k [|? ?]]]]; try discriminate L. cbn; lia.
Qed.

Lemma weight2 junk M r : 3 <= Dm -> (Z.of_nat n <= 2345)%Z ->
  (forall L, NoDup L -> (forall s, In s L -> rips ltD dm t 3 s) -> (Z.of_nat (length L) <= 2 ^ 31)%Z) ->
  make_delta2_compact ltD junk dm t T = Ok M ->
  s_cols M = comb n 3 /\ (r < s_rows M -> (weight (row_entries M r) <= 4)%Z).
Proof.
  intros HD Hn Hl E; rewrite (delta2_compact_ok ltD junk dm t N Dm Hsq HN) in E;
    [|lia|apply tri_fit; exact Hn|apply Hl; [apply rlist_NoDup|intros s Hs; apply rl_rips; assumption]].
  apply Ok_inj in E; subst M; cbn [s_rows s_cols]; split; [reflexivity|]. intros Hr.
  unfold row_entries; cbn [s_entries].
  destruct (nth_error (rl ltD dm t 3) r) as [s|] eqn:Es; [|apply nth_error_None in Es; lia].
  rewrite (block_num ltD dm t ent2 3 r s); [|intros c u e0; apply ent2_key|exact Es].
  pose proof (rl_simplex ltD dm t 3 s (nth_error_In _ _ Es)) as (L & _ & _).
  destruct s as [|i [|j [|k [|l [|? ?]]]]]; try discriminate L. cbn; lia.
Qed.
End Mats.

(** ** The repair of one vector by any matrix *)
Lemma repair_with_ok m p milp M idx c d eps tol :
  (forall r, r < s_rows M -> (weight (row_entries M r) <= m)%Z) ->
  p <> 0%Z -> (0 <= eps < 1 / 2)%R -> (IZR m * eps + tol < 1)%R -> sound_milp eps tol milp ->
  matvec (K := Zring) M c = Ok d -> Forall (fun v => (p | v)%Z) d ->
  (exists c', repair_with p milp M idx c = Ok c' /\ congruent_mod p c c' /\
     exists z, matvec (K := Zring) M c' = Ok z /\ Forall (fun v => v = 0%Z) z) \/
  (repair_with p milp M idx c = Raise (NoIntegralLift idx) /\
   milp M (map (fun v => (v / p)%Z) d) = None).
Proof.
  intros Hw Hp He Ht Hs Ed Fd; unfold repair_with; rewrite Ed; cbn [bind].
  change (carrier Zring) with Z in *.
  destruct (milp M _) as [x|] eqn:Ex; [left|right; split; reflexivity].
  pose proof (Hs _ _ _ Ex) as Hx; pose proof Hx as (Lx & _).
  pose proof (matvec_len M c d Ed) as Lc.
  rewrite (proj2 (Nat.eqb_eq _ _)) by congruence.
  pose proof (rounding_exact m M _ x eps tol Hw He Ht Hx) as Ek.
  assert (Lk : length (map rint x) = length c) by (rewrite map_length; congruence).
  destruct (proj1 (repair_zero p M c (map rint x) d Hp Ed Fd) (conj Ek Lk)) as (_ & z & Ez & Fz).
  exists (zsub p c (map rint x)); split; [|split].
  - f_equal; unfold zsub. clear. revert x; induction c as [|a c IH]; intros [|b x]; cbn; try reflexivity.
    f_equal; apply IH.
  - apply zsub_congruent; congruence.
  - exists z; auto.
Qed.

Lemma Forall2_length {A B} (P : A -> B -> Prop) l l' : Forall2 P l l' -> length l = length l'.
Proof. induction 1; cbn; congruence. Qed.

(** ** The loop over the classes *)
Section Loop.
Context {D : Type} (ltD : D -> D -> bool) (dm : list (list D)) (t : D) (N Dm : nat).
Hypothesis Hsq : square dm.
Hypothesis HN : length dm <= N.
Hypothesis HD : 2 <= Dm.
Hypothesis Hn : (Z.of_nat (length dm) <= 2345)%Z.
Notation n := (length dm).
Notation T := (combinatorial_number_system_table N Dm).
Context (junk : nat -> Z) (p : Z) (milp : milp_solver).
Notation step := (repair_step ltD junk p milp dm t T).
Notation cocycle := (one_cocycle ltD dm t T).

Lemma test_true c : is_binomial n 2 (length c) -> cocycle c ->
  exists m, is_one_cocycle ltD c dm t T = Ok (true, m).
Proof.
  intros L H; destruct (C15_is_one_cocycle ltD dm t N Dm c Hsq HN HD L) as (b & m & E & Hb & _).
  exists m; rewrite E; rewrite (proj2 Hb H); reflexivity.
Qed.
Lemma test_false c : is_binomial n 2 (length c) -> ~ cocycle c ->
  exists m, is_one_cocycle ltD c dm t T = Ok (false, m).
Proof.
  intros L H; destruct (C15_is_one_cocycle ltD dm t N Dm c Hsq HN HD L) as (b & m & E & Hb & _).
  exists m; rewrite E; destruct b; [tauto|reflexivity].
Qed.

Lemma cocycle_dec c : is_binomial n 2 (length c) -> cocycle c \/ ~ cocycle c.
Proof.
  intros L; destruct (C15_is_one_cocycle ltD dm t N Dm c Hsq HN HD L) as (b & m & E & Hb & _).
  destruct b; [left; apply Hb; reflexivity|right; intros H; apply Hb in H; discriminate H].
Qed.

Lemma step_keep i c d acc : is_binomial n 2 (length c) -> cocycle c ->
  step (i, c) (d, acc) = Ok (d, acc ++ [c]).
Proof.
  intros L H; unfold repair_step; cbn [fst snd]. destruct (test_true c L H) as [m ->]; reflexivity.
Qed.

Lemma loop_keep cs : forall is d acc, length is = length cs ->
  Forall (fun x => is_binomial n 2 (length x)) cs -> Forall cocycle cs ->
  for_in (combine is cs) step (d, acc) = Ok (d, acc ++ cs).
Proof.
  induction cs as [|c cs IH]; intros [|i is] d acc L F1 F2; try discriminate L.
  - rewrite app_nil_r; reflexivity.
  - cbn [combine for_in]; inversion F1; inversion F2; subst.
    rewrite step_keep by assumption; cbn [bind].
    rewrite IH by (try assumption; injection L; auto). rewrite <- app_assoc; reflexivity.
Qed.

Lemma step_first i c acc : is_binomial n 2 (length c) -> ~ cocycle c ->
  exists M, (forall junk, make_delta1_compact ltD junk dm t T = Ok M) /\
    step (i, c) (None, acc) = (c' <- repair_with p milp M i c ;; Ok (Some M, acc ++ [c'])).
Proof.
  intros L H; destruct (C12_delta1_compact ltD dm t N Dm Hsq HN HD Hn) as (M & _ & HM & _).
  exists M; split; [exact HM|]. unfold repair_step; cbn [fst snd].
  destruct (test_false c L H) as [m ->]; cbn [bind fst]. rewrite HM; reflexivity.
Qed.

Lemma not_cocycle_size c : ~ cocycle c -> 3 <= n \/ ~ is_binomial n 2 (length c).
Proof.
  intros H; destruct (Nat.le_gt_cases 3 n) as [G|G]; [left; exact G|right; intros L; apply H].
  intros i j k a b e [Hs _] _ _ _; apply simplex3 in Hs; lia.
Qed.

Lemma step_second i c acc M : is_binomial n 2 (length c) -> ~ cocycle c ->
  make_delta1_compact ltD junk dm t T = Ok M ->
  step (i, c) (Some M, acc) = Raise ValueError.
Proof.
  intros L H EM; unfold repair_step; cbn [fst snd].
  destruct (test_false c L H) as [m ->]; cbn [bind fst].
  unfold csr_bool. destruct (weight1 ltD dm t N Dm Hsq HN junk M 0 HD Hn EM) as [-> _].
  destruct (not_cocycle_size c H) as [G|G]; [|tauto].
  assert (comb n 2 <> 1) as Hne by (pose proof (comb_2 n); nia).
  rewrite (proj2 (Nat.eqb_neq _ _) Hne), andb_false_r; reflexivity.
Qed.

Lemma combine_app {A B} (l1 l2 : list A) (m1 m2 : list B) : length l1 = length m1 ->
  combine (l1 ++ l2) (m1 ++ m2) = combine l1 m1 ++ combine l2 m2.
Proof. revert m1; induction l1 as [|x l1 IH]; intros [|y m1] L; try discriminate L; cbn; [reflexivity|f_equal; apply IH; injection L; auto]. Qed.

Lemma index_split a b : map Z.of_nat (range 0 (a + S b)) =
  map Z.of_nat (range 0 a) ++ Z.of_nat a :: map Z.of_nat (range (a + 1) (a + S b)).
Proof.
  unfold range. replace (a + S b - 0) with (a + S b) by lia. replace (a - 0) with a by lia.
  replace (a + S b - (a + 1)) with b by lia. rewrite seq_app, map_app; cbn [seq map Nat.add].
  rewrite Nat.add_1_r; reflexivity.
Qed.

Lemma loop_split pre c post d :
  Forall (fun x => is_binomial n 2 (length x)) pre -> Forall cocycle pre ->
  exists is, length is = length post /\
  for_in (combine (map Z.of_nat (range 0 (length (pre ++ c :: post)))) (pre ++ c :: post)) step (d, []) =
  (st <- step (Z.of_nat (length pre), c) (d, pre) ;; for_in (combine is post) step st).
Proof.
  intros F1 F2; rewrite app_length; cbn [length].
  exists (map Z.of_nat (range (length pre + 1) (length pre + S (length post)))); split.
  - rewrite map_length; unfold range; rewrite seq_length; lia.
  - rewrite index_split, combine_app by (rewrite map_length; unfold range; rewrite seq_length; lia).
    cbn [combine]. rewrite for_in_app.
    rewrite loop_keep by (try assumption; rewrite map_length; unfold range; rewrite seq_length; lia).
    reflexivity.
Qed.

(** A later failing class never gives a result once a matrix is stored. *)
Lemma loop_second_fails M pre c post is st :
  length is = length (pre ++ c :: post) -> fst st = Some M -> make_delta1_compact ltD junk dm t T = Ok M ->
  Forall (fun x => is_binomial n 2 (length x)) (pre ++ c :: post) -> Forall cocycle pre -> ~ cocycle c ->
  for_in (combine is (pre ++ c :: post)) step st = Raise ValueError.
Proof.
  intros L Es EM F F2 H; destruct st as [d acc]; cbn [fst] in Es; subst d.
  revert is acc L; induction pre as [|x pre IH]; intros [|i is] acc L; try discriminate L; cbn [app combine for_in].
  - inversion F; subst. rewrite step_second by assumption; reflexivity.
  - inversion F; inversion F2; subst. rewrite step_keep by assumption; cbn [bind].
    apply IH; try assumption. injection L; auto.
Qed.
End Loop.

(** The first element not satisfying a decidable property. *)
Lemma first_failing {A} (P Q : A -> Prop) (l : list A) : Forall Q l -> (forall x, Q x -> P x \/ ~ P x) ->
  Forall P l \/ exists pre x post, l = pre ++ x :: post /\ Forall P pre /\ ~ P x.
Proof.
  intros F H; induction l as [|x l IH]; [left; constructor|]. inversion F; subst.
  destruct (H x) as [Y|Y]; [assumption| |right; exists [], x, l; repeat split; [constructor|exact Y]].
  destruct IH as [G|(pre & y & post & -> & G & Ny)]; [assumption|left; constructor; assumption|].
  right; exists (x :: pre), y, post; repeat split; [constructor; assumption|exact Ny].
Qed.
