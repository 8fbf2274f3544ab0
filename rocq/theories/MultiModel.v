(** Model of the evaluation of the posterior covariance of a process with [m]
    outputs ([randprocs/_gaussian_process/_conditional.py] 223-251).  The process is
    indexed by pairs of a point and an output, as in [CondModel]. *)
From mathcomp Require Import all_ssreflect all_algebra.
From mathcomp Require Import mxtens.
From Verif Require Import Base NdArray Block2Model NormalModel CondModel.
Set Implicit Arguments. Unset Strict Implicit. Unset Printing Implicit Defensive.
Import GRing.Theory Num.Theory.
Local Open Scope ring_scope.

Section Multi.
Variables (F : realFieldType) (P : Type) (m : nat).
Notation X := (P * 'I_m)%type.
(** [CovarianceFunction._evaluate] (223-231) at two points without batch axes:
    [kLas_x0] has the shape (m, N), the update [(kLas_x0\[..., None, :\] @
    solve(kLas_x1\[..., None\]))\[..., 0, 0\]] the shape (m,), and is subtracted
    from the (m, m) array [k_xx] by broadcasting along its rows. *)
Definition m_update (s : cgp F X) (p0 p1 : P) (j : 'I_m) : result F :=
  bind (c_solve s (c_kLas s (p1, j))^T) (fun z => Ok ((c_kLas s (p0, j) *m z) 0 0)).
Definition m_cov (s : cgp F X) (p0 p1 : P) (i j : 'I_m) : result F :=
  bind (m_update s p0 p1 j) (fun u => Ok (gcov (c_prior s) (p0, i) (p1, j) - u)).
(** [Mean._evaluate] (193-197) *)
Definition m_mean (s : cgp F X) (p : P) (i : 'I_m) : F := gmean (c_prior s) (p, i) + (c_kLas s (p, i) *m c_w s) 0 0.
(** [CovarianceFunction._evaluate_linop] (245-251): one row or column per output and
    point, outputs first; the entries for the points number [a] and [b]. *)
Definition m_cov_linop (s : cgp F X) q0 q1 (ps0 : 'I_q0 -> P) (ps1 : 'I_q1 -> P) (a : 'I_q0) (b : 'I_q1) : result 'M[F]_m :=
  bind (c_cov_linop s (fun r : 'I_(m * q0) => (ps0 (mxtens_unindex r).2, (mxtens_unindex r).1))
                      (fun r : 'I_(m * q1) => (ps1 (mxtens_unindex r).2, (mxtens_unindex r).1))) (fun C =>
  Ok (\matrix_(i, j) C (mxtens_index (i, a)) (mxtens_index (j, b)))).
End Multi.

(** Shape of the result of [_evaluate] for points with batch axes: [k_xx] has the
    shape [batch + (m, m)], the update [batch + (m,)]. *)
Definition m_shape (batch : shape) (m : nat) : result shape :=
  broadcast_shapes (List.app batch [:: m; m]) (List.app batch [:: m]).
(** [np.matmul] of a stack of row vectors and an array: operands of rank zero are
    rejected; a one-dimensional second operand must have the length of the rows. *)
Definition matmul_rows (batch : shape) (n : nat) (b : shape) : result shape :=
  match b with
  | [::] => Err ValueError
  | [:: k] => if k == n then Ok (List.app batch [:: 1%N]) else Err ValueError
  | _ => Err Unmodelled
  end.
(** [_evaluate_jax] (234-243): the index [\[..., 0, 0\]] is taken of the solution
    [batch + (N, 1)], leaving [batch], before the product.  [traced] as in
    [CrossJaxModel.v]: under [jax.jit], unless it is disabled, the views of the
    cross-covariances (238-239) raise first. *)
Definition jax_update_shape (traced : bool) (batch : shape) (n : nat) : result shape :=
  if traced then Err TypeError else matmul_rows batch n batch.
