(** RoundModel.v -- parts of the code in double precision: every operation on floats is rounded
    ([dbl]).  Overflow is not modelled.  The other models compute with exact reals. *)
From Coq Require Import Reals List.
From Verif Require Import Base RealBase EMModel LLLModel SpecRound.
Import ListNotations.
Local Open Scope R_scope.

(** ** Partition of unity *)

(** utils.py:658, 679, 700: PartUnity.linear, quadratic, exp.  [exp_] is np.exp; [x ** 2] is
    [x * x] in numpy.  Division by zero is not modelled: the statements exclude it. *)
Definition pu_linear_d (d r : R) : R := dbl (r - d).
Definition pu_quadratic_d (d r : R) : R := let x := dbl (r - d) in dbl (x * x).
Definition pu_exp_d (exp_ : R -> R) (d r : R) : R :=
  let r2 := dbl (r * r) in exp_ (dbl (r2 / dbl (dbl (d * d) - r2))).

(** emcoords.py:154-186 [get_covering_partition]; [sum_] is np.sum along the landmarks. *)
Definition get_covering_partition_d (sum_ : list R -> R) (dist_land_data : list (list R)) (r_cover : R)
    (partunity_fn : R -> R -> R) : list (list (option R)) * list nat :=
  let m := shape1 dist_land_data in
  let U := map (map (fun d => Rltb d r_cover)) dist_land_data in
  let phi := map (map (fun d => if Rltb d r_cover then partunity_fn d r_cover else 0)) dist_land_data in
  let denom := map (fun b => sum_ (column phi b)) (seq 0 m) in
  let varphi := map (fun row => map (fun pd =>
                  if Reqb (snd pd) 0 then None else Some (dbl (fst pd / snd pd))) (combine row denom)) phi in
  let ball_indx := map (fun b => argmax_bool (bcolumn U b)) (seq 0 m) in
  (varphi, ball_indx).

(** emcoords.py:141-150 [get_cover_radius] (after the test of the range): the radius and the
    threshold. *)
Definition get_cover_radius_d (perc cohomdeath_rips cohombirth_rips : R) (standard_range : bool) : R * R :=
  let start := if standard_range then dbl (2 * cohomdeath_rips) else cohomdeath_rips in
  let end_ := cohombirth_rips in
  let rips_threshold := dbl (dbl (dbl (1 - perc) * start) + dbl (perc * end_)) in
  (dbl (rips_threshold / 2), rips_threshold).

(** ** Angles *)

(** The constants np.pi and 2 * np.pi. *)
Definition np_pi : R := dbl PI.
Definition two_pi_d : R := dbl (2 * np_pi).

(** [fmod] of the C library, which is exact: the remainder of the division truncated towards 0. *)
Definition trunc (x : R) : Z := if Rltb x 0 then (- Int_part (- x))%Z else Int_part x.
Definition fmod (x y : R) : R := x - y * IZR (trunc (x / y)).
(** np.mod and [%] of floats for a positive divisor: numpy corrects the sign of [fmod]. *)
Definition np_mod_d (x y : R) : R := let f := fmod x y in if Rltb f 0 then dbl (f + y) else f.

(** utils.py:1306 [CircleMapUtils.offset] for one point; utils.py:1282 [center] given the most
    frequent tick; toroidalcoords.py:308, the angle of a data point with class map value [v]. *)
Definition offset_d (c off : R) : R := np_mod_d (dbl (c + dbl (off * two_pi_d))) two_pi_d.
Definition center_d (c tick : R) : R := np_mod_d (dbl (dbl (c - tick) + np_pi)) two_pi_d.
Definition angle_d (v : R) : R := np_mod_d (dbl (two_pi_d * v)) two_pi_d.

(** ** Lattice reduction: toroidalcoords.py:379-437 as in LLLModel.v, with every operation on
    floats rounded by [rnd].  [dot_] is np.dot (in any order, with or without fused operations).  The entries of [change] are integers;
    beyond 2^53 not all integers are doubles, and the model stops ([PrecisionLost]).  Division by
    zero yields some number, as in LLLModel.v; the statement does not depend on it. *)
Section Rounded.
Variables (rnd : R -> R) (dot_ : list R -> list R -> R).
Definition vsub_d (u v : list R) : list R := map (fun p => rnd (fst p - snd p)) (combine u v).
Definition vscale_d (c : R) (v : list R) : list R := map (fun x => rnd (c * x)) v.
Definition gs_coefficient_d (v1 v2 : list R) : R := rnd (dot_ v2 v1 / dot_ v1 v1).
Definition gs_column_d (B : list (list R)) (i : nat) : list R :=
  fold_left (fun Ai j => let Aj := col B j in vsub_d Ai (vscale_d (gs_coefficient_d Aj Ai) Aj)) (range 0 i) (col B i).
Definition gram_schmidt_d (B : list (list R)) : list (list R) := map (gs_column_d B) (range 0 (length B)).

Record lll_state_d := mkLLLd { d_B : list (list R); d_Q : list (list R); d_change : list (list Z); d_k : nat }.
Definition zcol (M : list (list Z)) (i : nat) : list Z := nth i M [].
Definition zset_col (M : list (list Z)) (k : nat) (v : list Z) : list (list Z) := firstn k M ++ v :: skipn (S k) M.
Definition zeye (n : nat) : list (list Z) :=
  map (fun i => map (fun j => if (i =? j)%nat then 1%Z else 0%Z) (seq 0 n)) (seq 0 n).
Definition lll_init_d (B : list (list R)) : lll_state_d := mkLLLd B (gram_schmidt_d B) (zeye (length B)) 1.
Definition mu_d (st : lll_state_d) (i j : nat) : R :=
  rnd (dot_ (col (d_B st) i) (col (d_Q st) j) / dot_ (col (d_Q st) j) (col (d_Q st) j)).

Definition exact_int (z : Z) : res Z := if (Z.abs z <=? 2 ^ 53)%Z then Ok z else Raise PrecisionLost.
(** [a - r * b] for integers held in doubles. *)
Definition zsub_mul (r a b : Z) : res Z := q <- exact_int (r * b) ;; exact_int (a - q).
Definition zcolumn_op (r : Z) (u v : list Z) : res (list Z) := map_res (fun p => zsub_mul r (fst p) (snd p)) (combine u v).

(** toroidalcoords.py:414-419. *)
Definition lll_reduce1_d (k : nat) (j : nat) (st : lll_state_d) : res lll_state_d :=
  if Rltb (1 / 2) (Rabs (mu_d st k j)) then
    let r := rint (mu_d st k j) in
    let B' := firstn k (d_B st) ++ vsub_d (col (d_B st) k) (vscale_d (IZR r) (col (d_B st) j)) :: skipn (S k) (d_B st) in
    c <- zcolumn_op r (zcol (d_change st) k) (zcol (d_change st) j) ;;
    Ok (mkLLLd B' (gram_schmidt_d B') (zset_col (d_change st) k c) (d_k st))
  else Ok st.
Definition lll_reduce_d (st : lll_state_d) : res lll_state_d :=
  for_in (rev (range 0 (d_k st))) (lll_reduce1_d (d_k st)) st.

(** toroidalcoords.py:413-435. *)
Definition lll_turn_d (delta : R) (st0 : lll_state_d) : res lll_state_d :=
  st <- lll_reduce_d st0 ;;
  let k := d_k st in
  let Q := d_Q st in
  let m := mu_d st k (k - 1) in
  if Rltb (rnd (rnd (delta - rnd (m * m)) * dot_ (col Q (k - 1)) (col Q (k - 1)))) (dot_ (col Q k) (col Q k))
  then Ok (mkLLLd (d_B st) Q (d_change st) (k + 1))
  else
    let B' := swap_cols (d_B st) k in
    Ok (mkLLLd B' (gram_schmidt_d B')
          (zset_col (zset_col (d_change st) k (zcol (d_change st) (k - 1))) (k - 1) (zcol (d_change st) k))
          (Nat.max (k - 1) 1)).

(** toroidalcoords.py:412-437. *)
Fixpoint lll_loop_d (delta : R) (fuel : nat) (st : lll_state_d) : res (list (list R) * list (list Z)) :=
  if (d_k st <? length (d_B st))%nat then
    match fuel with
    | 0%nat => Raise LoopForever
    | S fuel' => st' <- lll_turn_d delta st ;; lll_loop_d delta fuel' st'
    end
  else Ok (d_B st, d_change st).
Definition lll_d (fuel : nat) (B : list (list R)) : res (list (list R) * list (list Z)) :=
  lll_loop_d (3 / 4) fuel (lll_init_d B).
End Rounded.
