(** Model of [src/linpde_gp/functions/bases/_fem.py],
    [src/linpde_gp/linfunctls/projections/l2/_fem.py] and
    [src/linpde_gp/linfunctls/weak_forms/_laplacian.py].
    Simplified: evaluation at one point; a 1-d grid is a list of reals. *)
From Coq Require Import List Reals Bool Arith ZArith.
From Coquelicot Require Import Coquelicot.
From Verif Require Import Base.
Import ListNotations.
Open Scope R_scope.

(** bases/_fem.py:8-36 ([__init__]); [b_grid] is the attribute [_grid] with the
    sentinel points. *)
Record basis := mkbasis { b_grid : list R; b_zero : bool }.

Definition at_ (g : list R) (i : nat) : R := nth i g 0.

Definition basis_init (grid : list R) (zero_boundary : bool) : result basis :=
  let N := length grid in
  if (N <? 3)%nat then Err ValueError
  else if zero_boundary then Ok (mkbasis grid true)
  else Ok (mkbasis
    ([at_ grid 0 - (at_ grid 1 - at_ grid 0)] ++ grid
     ++ [at_ grid (N - 1) + (at_ grid (N - 1) - at_ grid (N - 2))]) false).

(** bases/_fem.py:34-37, 106-107 ([output_shape], [__len__]). *)
Definition b_len (b : basis) : nat := length (b_grid b) - 2.

(** bases/_fem.py:43-53. *)
Definition x_im1 (b : basis) (i : nat) : R := at_ (b_grid b) i.
Definition x_i (b : basis) (i : nat) : R := at_ (b_grid b) (i + 1).
Definition x_ip1 (b : basis) (i : nat) : R := at_ (b_grid b) (i + 2).

(** bases/_fem.py:30-31. *)
Definition left_factor (b : basis) (i : nat) : R := 1 / (x_i b i - x_im1 b i).
Definition right_factor (b : basis) (i : nat) : R := 1 / (x_ip1 b i - x_i b i).

Definition hat_value (b : basis) (i : nat) (x : R) : R :=
  Rmax 0 (if Rltb x (x_i b i)
          then (x - x_im1 b i) * left_factor b i
          else (x_ip1 b i - x) * right_factor b i).

(** Component [i] of bases/_fem.py:59-73 ([_evaluate]). *)
Definition basis_eval (b : basis) (x : R) (i : nat) : R :=
  let res := hat_value b i x in
  if b_zero b then res
  else
    let res := if Rltb x (at_ (b_grid b) 1) && (i =? 0)%nat then 0 else res in
    if Rltb (at_ (b_grid b) (length (b_grid b) - 2)) x && (i =? b_len b - 1)%nat
    then 0 else res.

(** Python indexing with a possibly negative index. *)
Definition py_index (n : nat) (idx : Z) : result nat :=
  if (0 <=? idx)%Z && (idx <? Z.of_nat n)%Z then Ok (Z.to_nat idx)
  else if (- Z.of_nat n <=? idx)%Z && (idx <? 0)%Z then Ok (Z.to_nat (idx + Z.of_nat n))
  else Err IndexError.

(** bases/_fem.py:75-93 ([eval_elem]). *)
Definition eval_elem (b : basis) (idx : Z) (x : R) : result R :=
  bind (py_index (b_len b) idx) (fun i =>
    let res := hat_value b i x in
    Ok (if b_zero b then res
        else
          let res := if Rltb x (at_ (b_grid b) 1) then 0 else res in
          if Rltb (at_ (b_grid b) (length (b_grid b) - 2)) x then 0 else res)).

(** bases/_fem.py:95-105 ([support_bounds]). *)
Definition support_bounds (b : basis) (idx : Z) : result (R * R) :=
  let n := Z.of_nat (b_len b) in
  if negb ((- n <=? idx)%Z && (idx <? n)%Z) then Err AssertionError
  else
    let general := bind (py_index (b_len b) idx) (fun i => Ok (x_im1 b i, x_ip1 b i)) in
    if b_zero b then general
    else if (idx =? 0)%Z || (idx =? - n)%Z then Ok (x_i b 0, x_ip1 b 0)
    else if (idx =? n - 1)%Z || (idx =? -1)%Z
      then Ok (x_im1 b (b_len b - 1), x_i b (b_len b - 1))
    else general.

(** Entry (i, j) of [scipy.sparse.diags(diagonals, offsets)]: the diagonal with
    offset k holds the entries with column - row = k, listed from the top left.
    (Within the matrix the stored diagonals are always long enough here.) *)
Definition diags_entry (ds : list (Z * (nat -> R))) (i j : nat) : R :=
  fold_right (fun '(k, d) acc =>
      (if (Z.of_nat j - Z.of_nat i =? k)%Z then d (Nat.min i j) else 0) + acc) 0 ds.

(** projections/l2/_fem.py:42-57: the matrix whose inverse is [normalizer]. *)
Definition mass_diag (b : basis) (i : nat) : R :=
  let d := (x_ip1 b i - x_im1 b i) / 3 in
  if b_zero b then d
  else if (i =? b_len b - 1)%nat then (x_i b i - x_im1 b i) / 3
  else if (i =? 0)%nat then (x_ip1 b i - x_i b i) / 3
  else d.
Definition mass_offdiag (b : basis) (i : nat) : R := (x_ip1 b i - x_i b i) / 6.
Definition mass_matrix (b : basis) (i j : nat) : R :=
  diags_entry [((-1)%Z, mass_offdiag b); (0%Z, mass_diag b); (1%Z, mass_offdiag b)] i j.

(** projections/l2/_fem.py:81-87: right-hand side for a [Constant]. *)
Definition constant_rhs (b : basis) (c : R) (i : nat) : R :=
  let r := (c / 2) * (x_ip1 b i - x_im1 b i) in
  if b_zero b then r
  else if (i =? b_len b - 1)%nat then (c / 2) * (x_i b i - x_im1 b i)
  else if (i =? 0)%nat then (c / 2) * (x_ip1 b i - x_i b i)
  else r.

(** projections/l2/_fem.py:37-58: applying [normalizer] to [res] gives [w].  The
    inverse operator of line 58 is modelled by the linear system it solves. *)
Definition normalizer_gives (b : basis) (normalized : bool) (res w : nat -> R) : Prop :=
  if normalized
  then forall i, (i < b_len b)%nat ->
    fold_right Rplus 0 (map (fun j => mass_matrix b i j * w j) (seq 0 (b_len b))) = res i
  else forall i, (i < b_len b)%nat -> w i = res i.

(** projections/l2/_fem.py:64-77: right-hand side for a general function.
    Simplified: [scipy.integrate.quad] is the exact Riemann integral. *)
Definition quad_rhs (b : basis) (f : R -> R) (res : nat -> R) : Prop :=
  forall i, (i < b_len b)%nat -> exists lo hi,
    support_bounds b (Z.of_nat i) = Ok (lo, hi) /\
    is_RInt (fun x => match eval_elem b (Z.of_nat i) x with Ok e => e * f x | Err _ => 0 end)
      lo hi (res i).

(** weak_forms/_laplacian.py:31-36, 37-50: applicability check and matrix. *)
Fixpoint list_Reqb (l m : list R) : bool :=
  match l, m with
  | [], [] => true
  | x :: l', y :: m' => Reqb x y && list_Reqb l' m'
  | _, _ => false
  end.
Definition weak_laplacian (test trial : basis) : result (nat -> nat -> R) :=
  if negb (b_zero test) then Err AssertionError      (* __init__, line 14 *)
  else if b_zero trial then Err NotImplementedError
  else if ((b_len trial =? b_len test + 2)%nat
           && list_Reqb (slice (b_grid trial) 1 (length (b_grid trial) - 1)) (b_grid test))%bool
  then
    let grid := at_ (b_grid trial) in
    let dist_normalizer i := 1 / (grid (i + 1)%nat - grid i) in
    Ok (diags_entry [(0%Z, fun t => dist_normalizer t);
                     (1%Z, fun t => - dist_normalizer t - dist_normalizer (t + 1)%nat);
                     (2%Z, fun t => dist_normalizer (t + 1)%nat)])
  else Err NotImplementedError.
