(** LLLModel.v -- model of the lattice reduction in dreimac/toroidalcoords.py:
    _gram_schmidt (379-397) and _lll (401-437).  Floats are reals.

    A square matrix is represented by the list of its COLUMNS, since the code only ever
    accesses [B[:, i]], [Q[:, i]] and [change[:, i]].  Division by zero (dependent columns)
    yields an unspecified real here, inf or NaN in numpy; theorems that read the value of
    a quotient assume independent columns. *)
From Verif Require Export Base RealBase.
Local Open Scope R_scope.

(** np.dot of two vectors, difference and scaling. *)
Definition vdot (u v : list R) : R :=
  fold_right Rplus 0 (map (fun p => fst p * snd p) (combine u v)).
Definition vsub (u v : list R) : list R := map (fun p => fst p - snd p) (combine u v).
Definition vscale (c : R) (v : list R) : list R := map (Rmult c) v.
Definition col (B : list (list R)) (i : nat) : list R := nth i B [].

(** toroidalcoords.py:380-385 [gs_cofficient], [proj]. *)
Definition gs_coefficient (v1 v2 : list R) : R := vdot v2 v1 / vdot v1 v1.
Definition proj (v1 v2 : list R) : list R := vscale (gs_coefficient v1 v2) v1.

(** toroidalcoords.py:379-397 [_gram_schmidt].  [A[:, 0] = B[:, 0]] is the case of an
    empty inner loop.  Note line 393: the projection is onto [B[:, j]], not [A[:, j]]. *)
Definition gs_column (B : list (list R)) (i : nat) : list R :=
  fold_left (fun Ai j => let Aj := col B j in vsub Ai (proj Aj Ai)) (range 0 i) (col B i).
Definition gram_schmidt (B : list (list R)) : list (list R) :=
  map (gs_column B) (range 0 (length B)).

(** The variables of _lll. *)
Record lll_state := mkLLL {
  l_B : list (list R);
  l_Q : list (list R);
  l_change : list (list R);
  l_k : nat
}.

(** np.eye(n), by columns. *)
Definition eye (n : nat) : list (list R) := mk2 n n (fun i j => if (i =? j)%nat then 1 else 0).

(** toroidalcoords.py:402-404, 411. *)
Definition lll_init (B : list (list R)) : lll_state :=
  mkLLL B (gram_schmidt B) (eye (length B)) 1.

(** toroidalcoords.py:406-409 [mu]. *)
Definition mu (st : lll_state) (i j : nat) : R :=
  vdot (col (l_B st) i) (col (l_Q st) j) / vdot (col (l_Q st) j) (col (l_Q st) j).

(** [M[:, k] = v]. *)
Definition set_col (M : list (list R)) (k : nat) (v : list R) : list (list R) :=
  firstn k M ++ v :: skipn (S k) M.

(** toroidalcoords.py:414-419: the body of the length reduction loop. *)
Definition lll_reduce1 (k : nat) (st : lll_state) (j : nat) : lll_state :=
  if Rltb (1 / 2) (Rabs (mu st k j)) then
    let r := IZR (rint (mu st k j)) in
    let B' := set_col (l_B st) k (vsub (col (l_B st) k) (vscale r (col (l_B st) j))) in
    let change' := set_col (l_change st) k
                     (vsub (col (l_change st) k) (vscale r (col (l_change st) j))) in
    mkLLL B' (gram_schmidt B') change' (l_k st)
  else st.

(** toroidalcoords.py:414: [for j in reversed(range(k))]. *)
Definition lll_reduce (st : lll_state) : lll_state :=
  fold_left (lll_reduce1 (l_k st)) (rev (range 0 (l_k st))) st.

(** toroidalcoords.py:427-431: exchange of two columns. *)
Definition swap_cols (M : list (list R)) (k : nat) : list (list R) :=
  set_col (set_col M k (col M (k - 1))) (k - 1) (col M k).

(** toroidalcoords.py:413-435: one turn of the while loop. *)
Definition lll_turn (delta : R) (st0 : lll_state) : lll_state :=
  let st := lll_reduce st0 in
  let k := l_k st in
  let Q := l_Q st in
  if Rltb ((delta - mu st k (k - 1) ^ 2) * vdot (col Q (k - 1)) (col Q (k - 1)))
          (vdot (col Q k) (col Q k))
  then mkLLL (l_B st) Q (l_change st) (k + 1)
  else
    let B' := swap_cols (l_B st) k in
    mkLLL B' (gram_schmidt B') (swap_cols (l_change st) k) (Nat.max (k - 1) 1).

(** toroidalcoords.py:412-437: [while k < n]; [fuel] bounds the number of turns. *)
Fixpoint lll_loop (delta : R) (fuel : nat) (st : lll_state) : res (list (list R) * list (list R)) :=
  if (l_k st <? length (l_B st))%nat then
    match fuel with
    | 0%nat => Raise LoopForever
    | S fuel' => lll_loop delta fuel' (lll_turn delta st)
    end
  else Ok (l_B st, l_change st).

(** toroidalcoords.py:401-437 [_lll(B)] with delta = 3/4. *)
Definition lll (fuel : nat) (B : list (list R)) : res (list (list R) * list (list R)) :=
  lll_loop (3 / 4) fuel (lll_init B).
