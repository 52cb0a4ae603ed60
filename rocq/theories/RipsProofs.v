(** RipsProofs.v -- the nested loops of the jitted code enumerate the simplices of the
    Rips complex in lexicographic order. *)
From Coq Require Import Sorted.
From Verif Require Import Base BaseProofs CombinatorialModel SpecSimplex CombinatorialProofs
  DeltaModel SpecRips.

Fixpoint rlist (n : nat) (cl : nat -> nat -> bool) (d : nat) : list (list nat) :=
  match d with
  | 0 => map (fun i => [i]) (range 0 n)
  | S d' => flat_map (fun s => map (fun k => s ++ [k])
              (filter (fun k => forallb (fun v => cl v k) s) (range (last s 0 + 1) n)))
            (rlist n cl d')
  end.

Lemma FOP_snoc {A} (R : A -> A -> Prop) s k :
  ForallOrdPairs R (s ++ [k]) <-> ForallOrdPairs R s /\ Forall (fun v => R v k) s.
Proof.
  induction s as [|a s IH]; cbn [app].
  - split; [intros _; split; constructor | intros _; repeat constructor].
  - split.
    + intros H; inversion H as [|? ? F P]; subst; apply IH in P; destruct P as [P1 P2].
      apply Forall_app in F; destruct F as [F1 F2]; inversion F2; subst.
      split; constructor; assumption.
    + intros [P F]; inversion P as [|? ? F1 P1]; subst; inversion F; subst.
      constructor; [apply Forall_app; split; [assumption|constructor; [assumption|constructor]]|].
      apply IH; split; assumption.
Qed.

Lemma last_snoc {A} (s : list A) x d : last (s ++ [x]) d = x.
Proof. apply last_last. Qed.

Lemma sorted_last (s : list nat) v d : StronglySorted lt s -> In v s -> v <= last s d.
Proof.
  destruct s as [|x s] using rev_ind; [intros _ []|].
  intros H Hv; rewrite last_snoc; apply sorted_snoc_inv in H; destruct H as [_ F].
  apply in_app_or in Hv; destruct Hv as [Hv|[<-|[]]]; [|lia].
  rewrite Forall_forall in F; specialize (F v Hv); lia.
Qed.

Lemma last_in {A} (s : list A) d : s <> [] -> In (last s d) s.
Proof.
  destruct s as [|x s] using rev_ind; [congruence|]. intros _; rewrite last_last.
  apply in_or_app; right; left; reflexivity.
Qed.

Lemma rlist_in n cl d s :
  In s (rlist n cl d) <-> simplex n d s /\ ForallOrdPairs (fun i j => cl i j = true) s.
Proof.
  revert s; induction d as [|d IH]; intros s; cbn [rlist].
  - rewrite in_map_iff; split.
    + intros (i & <- & Hi); apply in_range in Hi; split; [|repeat constructor].
      repeat split; repeat constructor; lia.
    + intros [(L & _ & F) _]; destruct s as [|i [|? ?]]; try discriminate L.
      inversion F; subst; exists i; split; [reflexivity|apply in_range; lia].
  - rewrite in_flat_map; split.
    + intros (s0 & H0 & H1); apply IH in H0; destruct H0 as [(L & S1 & F) P].
      apply in_map_iff in H1; destruct H1 as (k & <- & Hk); apply filter_In in Hk.
      destruct Hk as [Hk Hc]; apply in_range in Hk; rewrite forallb_forall in Hc.
      split; [split; [|split]|].
      * rewrite app_length, L; cbn; lia.
      * apply sorted_snoc; [exact S1|]. apply Forall_forall; intros v Hv.
        pose proof (sorted_last s0 v 0 S1 Hv); lia.
      * apply Forall_app; split; [exact F|constructor; [lia|constructor]].
      * apply FOP_snoc; split; [exact P|]. apply Forall_forall; exact Hc.
    + intros [(L & S1 & F) P]; destruct s as [|k s] using rev_ind; [discriminate L|]; clear IHs.
      rewrite app_length in L; cbn in L.
      apply sorted_snoc_inv in S1; destruct S1 as [S1 Fk].
      apply Forall_app in F; destruct F as [F Fn]; inversion Fn; subst.
      apply FOP_snoc in P; destruct P as [P Pk].
      exists s; split.
      * apply IH; repeat split; [lia|assumption|assumption|assumption].
      * apply in_map_iff; exists k; split; [reflexivity|]. apply filter_In; split.
        -- apply in_range; split; [|assumption].
           rewrite Forall_forall in Fk. assert (s <> []) by (intros ->; discriminate L || (cbn in L; lia)).
           specialize (Fk _ (last_in s 0 H)); lia.
        -- apply forallb_forall; rewrite Forall_forall in Pk; exact Pk.
Qed.

Lemma lex_snoc s k k' : k < k' -> lex_lt (s ++ [k]) (s ++ [k']).
Proof. intros H; induction s as [|x s IH]; cbn [app]; constructor; assumption. Qed.

Lemma lex_app s t u v : length s = length t -> lex_lt s t -> lex_lt (s ++ u) (t ++ v).
Proof.
  intros L H; induction H; cbn [app]; [constructor; assumption|].
  apply lex_tail, IHlex_lt; cbn in L; lia.
Qed.

Lemma sorted_app {A} (R : A -> A -> Prop) l1 l2 :
  StronglySorted R l1 -> StronglySorted R l2 -> (forall x y, In x l1 -> In y l2 -> R x y) ->
  StronglySorted R (l1 ++ l2).
Proof.
  intros H1 H2 H; induction H1 as [|x l1 S1 IH F]; cbn [app]; [exact H2|].
  constructor.
  - apply IH; intros; apply H; [right; assumption|assumption].
  - apply Forall_app; split; [exact F|]. apply Forall_forall; intros y Hy; apply H; [left; reflexivity|exact Hy].
Qed.

Lemma sorted_filter {A} (R : A -> A -> Prop) (f : A -> bool) l :
  StronglySorted R l -> StronglySorted R (filter f l).
Proof.
  induction 1 as [|x l S1 IH F]; cbn [filter]; [constructor|].
  destruct (f x); [|exact IH]. constructor; [exact IH|].
  rewrite Forall_forall in *; intros y Hy; apply filter_In in Hy; apply F, Hy.
Qed.

Lemma sorted_map {A B} (R : A -> A -> Prop) (Q : B -> B -> Prop) (f : A -> B) l :
  (forall x y, R x y -> Q (f x) (f y)) -> StronglySorted R l -> StronglySorted Q (map f l).
Proof.
  intros H; induction 1 as [|x l S1 IH F]; cbn [map]; constructor; [exact IH|].
  apply Forall_map, Forall_impl with (2 := F); auto.
Qed.

Lemma sorted_range a b : StronglySorted lt (range a b).
Proof.
  unfold range; generalize (b - a); intros m; revert a; induction m as [|m IH]; intros a; cbn [seq]; constructor; [apply IH|].
  apply Forall_forall; intros x Hx; apply in_seq in Hx; lia.
Qed.

Lemma rlist_sorted n cl d : StronglySorted lex_lt (rlist n cl d).
Proof.
  induction d as [|d IH]; cbn [rlist].
  - apply sorted_map with (R := lt); [|apply sorted_range]. intros; constructor; assumption.
  - assert (HL : Forall (fun s => length s = S d) (rlist n cl d)).
    { apply Forall_forall; intros s Hs; apply rlist_in in Hs; apply Hs. }
    induction IH as [|s l S1 IH F]; cbn [flat_map]; [constructor|].
    inversion HL as [|? ? HL1 HL2]; subst.
    apply sorted_app; [| apply IH; exact HL2 |].
    + apply sorted_map with (R := lt); [|apply sorted_filter, sorted_range].
      intros; apply lex_snoc; assumption.
    + intros x y Hx Hy; apply in_map_iff in Hx; destruct Hx as (k & <- & _).
      apply in_flat_map in Hy; destruct Hy as (t & Ht & Hy); apply in_map_iff in Hy.
      destruct Hy as (k' & <- & _); rewrite Forall_forall in F, HL2.
      apply lex_app; [rewrite HL1, HL2 by exact Ht; reflexivity | apply F; exact Ht].
Qed.

Lemma sorted_NoDup {A} (R : A -> A -> Prop) l : (forall x, ~ R x x) -> StronglySorted R l -> NoDup l.
Proof.
  intros H; induction 1 as [|x l S1 IH F]; constructor; [|exact IH].
  rewrite Forall_forall in F; intros Hx; apply (H x), F, Hx.
Qed.

Lemma rlist_NoDup n cl d : NoDup (rlist n cl d).
Proof. apply (sorted_NoDup lex_lt); [apply lex_lt_irrefl|apply rlist_sorted]. Qed.

Lemma rank_inj_list n d l : NoDup l -> (forall s, In s l -> simplex n d s) -> NoDup (map rank l).
Proof.
  induction l as [|s l IH]; intros N H; cbn [map]; constructor.
  - intros Hi; apply in_map_iff in Hi; destruct Hi as (t & E & Ht).
    inversion N as [|? ? Ns _]; subst; apply Ns.
    assert (s = t) as ->; [|exact Ht].
    destruct (H s (or_introl eq_refl)) as (a1 & a2 & _), (H t (or_intror Ht)) as (b1 & b2 & _).
    apply rank_inj; congruence.
  - apply IH; [inversion N; assumption|]. intros; apply H; right; assumption.
Qed.

Lemma rlist_length n cl d : length (rlist n cl d) <= comb n (S d).
Proof.
  rewrite <- (map_length rank). rewrite <- (seq_length (comb n (S d)) 0).
  apply NoDup_incl_length.
  - apply (rank_inj_list n d); [apply rlist_NoDup|]. intros s Hs; apply rlist_in in Hs; apply Hs.
  - intros r Hr; apply in_map_iff in Hr; destruct Hr as (s & <- & Hs); apply rlist_in in Hs.
    destruct Hs as [(L & S1 & F) _]; apply in_seq; pose proof (rank_lt s n S1 F); rewrite L in H; lia.
Qed.

(** ** Loops *)
Section Loops.
Context {D : Type} (ltD : D -> D -> bool) (dm : list (list D)) (t : D).
Hypothesis Hsq : square dm.
Notation n := (length dm).

Definition closeb (i j : nat) : bool :=
  match nth_error dm i with
  | Some row => match nth_error row j with Some x => ltD x t | None => false end
  | None => false
  end.

Lemma closeb_close i j : closeb i j = true <-> close ltD dm t i j.
Proof.
  unfold closeb, close; split.
  - destruct (nth_error dm i) as [row|] eqn:E1; [|discriminate].
    destruct (nth_error row j) as [x|] eqn:E2; [|discriminate]. intros H; exists row, x; auto.
  - intros (row & x & -> & E2 & H); rewrite E2; exact H.
Qed.

Lemma below_ok i j : i < n -> j < n -> below ltD dm t i j = Ok (closeb i j).
Proof.
  intros Hi Hj; unfold below, closeb, get.
  destruct (nth_error dm i) as [row|] eqn:E1; [|apply nth_error_None in E1; lia].
  cbn [bind]. assert (L : length row = n).
  { unfold square in Hsq; rewrite Forall_forall in Hsq; apply Hsq; eapply nth_error_In; exact E1. }
  destruct (nth_error row j) as [x|] eqn:E2; [reflexivity|]. apply nth_error_None in E2; lia.
Qed.

Lemma dist_at_ok i j : i < n -> j < n -> exists x, dist_at dm i j = Ok x.
Proof.
  intros Hi Hj; unfold dist_at, get.
  destruct (nth_error dm i) as [row|] eqn:E1; [|apply nth_error_None in E1; lia].
  cbn [bind]. assert (L : length row = n).
  { unfold square in Hsq; rewrite Forall_forall in Hsq; apply Hsq; eapply nth_error_In; exact E1. }
  destruct (nth_error row j) as [x|] eqn:E2; [exists x; reflexivity|]. apply nth_error_None in E2; lia.
Qed.

Definition rl d := rlist n closeb d.

Lemma rl_rips d s : In s (rl d) <-> rips ltD dm t d s.
Proof.
  unfold rl; rewrite rlist_in; unfold rips.
  assert (G : forall l, ForallOrdPairs (fun i j => closeb i j = true) l <-> ForallOrdPairs (close ltD dm t) l).
  { induction l as [|x l IH]; [split; constructor|].
    split; intros H; inversion H; subst; (constructor; [|apply IH; assumption]);
      (eapply Forall_impl; [|eassumption]); intros; apply closeb_close; assumption. }
  rewrite G; reflexivity.
Qed.

(** One more nested loop over a tuple [s], guarded by closeness to all its members. *)
Lemma for_ext_loop {S} (B : list nat -> S -> res S) (L : list (list nat)) st :
  for_in (flat_map (fun s => map (fun k => s ++ [k])
            (filter (fun k => forallb (fun v => closeb v k) s) (range (last s 0 + 1) n))) L) B st =
  for_in L (fun s => for_in (range (last s 0 + 1) n) (fun k st =>
            if forallb (fun v => closeb v k) s then B (s ++ [k]) st else Ok st)) st.
Proof.
  rewrite for_in_flat_map; apply for_in_ext; intros s st' _.
  rewrite for_in_map, for_in_filter; reflexivity.
Qed.

Definition on2 {S} (B : nat -> nat -> S -> res S) (s : list nat) : S -> res S :=
  match s with [i; j] => B i j | _ => Ok end.
Definition on3 {S} (B : nat -> nat -> nat -> S -> res S) (s : list nat) : S -> res S :=
  match s with [i; j; k] => B i j k | _ => Ok end.
Definition on4 {S} (B : nat -> nat -> nat -> nat -> S -> res S) (s : list nat) : S -> res S :=
  match s with [i; j; k; l] => B i j k l | _ => Ok end.

Lemma for_edges_ok {S} (B : nat -> nat -> S -> res S) st :
  for_in (range 0 n) (fun i => for_in (range (i + 1) n) (fun j st =>
      c <- below ltD dm t i j ;; if c then B i j st else Ok st)) st =
  for_in (rl 1) (on2 B) st.
Proof.
  unfold rl; cbn [rlist]; rewrite for_ext_loop, for_in_map.
  apply for_in_ext; intros i st1 Hi; apply in_range in Hi; cbn [last].
  apply for_in_ext; intros j st2 Hj; apply in_range in Hj.
  rewrite below_ok by lia; cbn [bind forallb app on2]; rewrite andb_true_r; reflexivity.
Qed.

Lemma for_triangles_ok {S} (B : nat -> nat -> nat -> S -> res S) st :
  for_triangles ltD dm t B st = for_in (rl 2) (on3 B) st.
Proof.
  unfold for_triangles.
  rewrite (for_edges_ok (fun i j s => for_in (range (j + 1) n) (fun k s0 =>
    c <- and_then (below ltD dm t i k) (below ltD dm t j k) ;; if c then B i j k s0 else Ok s0) s)).
  unfold rl; change (rlist n closeb 2) with (flat_map (fun s => map (fun k => s ++ [k])
            (filter (fun k => forallb (fun v => closeb v k) s) (range (last s 0 + 1) n))) (rlist n closeb 1)).
  rewrite for_ext_loop; apply for_in_ext; intros s st1 Hs; apply rlist_in in Hs.
  destruct Hs as [(L & _ & F) _]; destruct s as [|i [|j [|? ?]]]; try discriminate L.
  inversion F as [|? ? Hi F1]; subst; inversion F1 as [|? ? Hj _]; subst.
  cbn [on2 last]; apply for_in_ext; intros k st2 Hk; apply in_range in Hk.
  rewrite !below_ok by lia; unfold and_then; cbn [bind forallb app on3]; rewrite andb_true_r.
  destruct (closeb i k); reflexivity.
Qed.

Lemma for_tetrahedra_ok {S} (B : nat -> nat -> nat -> nat -> S -> res S) st :
  for_tetrahedra ltD dm t B st = for_in (rl 3) (on4 B) st.
Proof.
  unfold for_tetrahedra; rewrite for_triangles_ok.
  unfold rl; change (rlist n closeb 3) with (flat_map (fun s => map (fun k => s ++ [k])
            (filter (fun k => forallb (fun v => closeb v k) s) (range (last s 0 + 1) n))) (rlist n closeb 2)).
  rewrite for_ext_loop; apply for_in_ext; intros s st1 Hs; apply rlist_in in Hs.
  destruct Hs as [(L & _ & F) _]; destruct s as [|i [|j [|k [|? ?]]]]; try discriminate L.
  inversion F as [|? ? Hi F1]; subst; inversion F1 as [|? ? Hj F2]; subst; inversion F2 as [|? ? Hk _]; subst.
  cbn [on3 last]; apply for_in_ext; intros l st2 Hl; apply in_range in Hl.
  rewrite !below_ok by lia; unfold and_then; cbn [bind forallb app on4]; rewrite andb_true_r.
  destruct (closeb i l), (closeb j l), (closeb k l); reflexivity.
Qed.
End Loops.
