(** Model of [BlockMatrix2x2] ([linops/_block.py] 84-292).

    Operators are mathcomp matrices over an arbitrary ordered field together
    with the property flags probnum attaches to them ([None]/[False] are both
    [false]).  Only square diagonal blocks are modelled (every operator in the
    repository built from this class is a Gram matrix or a factor of one).
    [A.inv() @ b] is multiplication with the inverse matrix. *)
From mathcomp Require Import all_ssreflect all_algebra.
From Verif Require Import Base.
Set Implicit Arguments. Unset Strict Implicit. Unset Printing Implicit Defensive.
Import GRing.Theory Num.Theory.
Local Open Scope ring_scope.

(** probnum's [is_symmetric], [is_positive_definite], [is_lower_triangular],
    [is_upper_triangular]. *)
Record flags := Flags { f_sym : bool; f_pd : bool; f_lo : bool; f_up : bool }.
Definition no_flags := Flags false false false false.

Section Model.
Variable F : realFieldType.

Record op (m n : nat) := Op { mx : 'M[F]_(m, n); fl : flags }.

(** probnum's [.T]: transposed matrix, triangular flags exchanged. *)
Definition op_T m n (a : op m n) : op n m :=
  Op (mx a)^T (Flags (f_sym (fl a)) (f_pd (fl a)) (f_up (fl a)) (f_lo (fl a))).
(** [pn.linops.Zero] *)
Definition op_zero m n : op m n := Op 0 no_flags.

Record block2 (m n : nat) := B2 {
  bA : op m m; bB : op m n; bC : op n m; bD : op n n;
  is_block_diagonal : bool; bfl : flags }.

(** [BlockMatrix2x2.__init__] ([_block.py] 113-173). *)
Definition mk_block2 m n (A : op m m) (B : option (op m n)) (C : option (op n m)) (D : op n n) (is_spd : bool)
  : result (block2 m n) :=
  match B, C with
  | None, None =>
      Ok (B2 A (op_zero m n) (op_zero n m) D true
             (Flags (f_sym (fl A) && f_sym (fl D)) false false false))
  | _, _ =>
    if is_spd then
      match B, C with
      | Some b, None =>
          if [&& f_sym (fl A), f_sym (fl D) & f_pd (fl A)]
          then Ok (B2 A b (op_T b) D false (Flags true true false false)) else Err AssertionError
      | None, Some c =>
          if [&& f_sym (fl A), f_sym (fl D) & f_pd (fl A)]
          then Ok (B2 A (op_T c) c D false (Flags true true false false)) else Err AssertionError
      | _, _ => Err AssertionError
      end
    else
      match B, C with
      | None, Some c =>
          if f_lo (fl A) && f_lo (fl D)
          then Ok (B2 A (op_zero m n) c D false (Flags false false true false)) else Err AssertionError
      | Some b, None =>
          if f_up (fl A) && f_up (fl D)
          then Ok (B2 A b (op_zero n m) D false (Flags false false false true)) else Err AssertionError
      | Some b, Some c => Ok (B2 A b c D false no_flags)
      | None, None => Err AssertionError (* handled above *)
      end
  end.

(** [_todense] ([_block.py] 270-276). *)
Definition b2_todense m n (M : block2 m n) : 'M[F]_(m + n) := block_mx (mx (bA M)) (mx (bB M)) (mx (bC M)) (mx (bD M)).

(** [_matmul] ([_block.py] 209-221). *)
Definition b2_matmul m n p (M : block2 m n) (x : 'M[F]_(m + n, p)) : 'M[F]_(m + n, p) :=
  let x0 := usubmx x in let x1 := dsubmx x in
  col_mx (mx (bA M) *m x0 + mx (bB M) *m x1) (mx (bC M) *m x0 + mx (bD M) *m x1).

(** [_transpose] ([_block.py] 223-224) behind probnum's [.T], which returns a
    symmetric operator unchanged and exchanges the triangular flags. *)
Definition b2_T m n (M : block2 m n) : result (block2 m n) :=
  if f_sym (bfl M) then Ok M
  else bind (mk_block2 (op_T (bA M)) (Some (op_T (bC M))) (Some (op_T (bB M))) (op_T (bD M)) false)
    (fun N => Ok (B2 (bA N) (bB N) (bC N) (bD N) (is_block_diagonal N)
                     (Flags (f_sym (bfl M)) (f_pd (bfl M)) (f_up (bfl M)) (f_lo (bfl M))))).

(** [_trace] ([_block.py] 278-279). *)
Definition b2_trace m n (M : block2 m n) : F := \tr (mx (bA M)) + \tr (mx (bD M)).

(** Lower Cholesky factor of a dense matrix: any function with the contract in
    [Block2Spec.chol_spec]. *)
Variable chol : forall n : nat, 'M[F]_n -> 'M[F]_n.

(** [A.cholesky(True)]: probnum marks the result as lower triangular. *)
Definition op_cholesky n (a : op n n) : op n n := Op (chol (mx a)) (Flags false false true false).

(** [L_A_inv_B] ([_block.py] 203-207). *)
Definition L_A_inv_B m n (M : block2 m n) : result 'M[F]_(m, n) :=
  if f_sym (bfl M) && f_pd (bfl M) then Ok (invmx (mx (op_cholesky (bA M))) *m mx (bB M)) else Err ValueError.

(** [schur] ([_block.py] 191-201). *)
Definition b2_schur m n (M : block2 m n) : result (op n n) :=
  if f_sym (bfl M) && f_pd (bfl M) then
    bind (L_A_inv_B M) (fun X => Ok (Op (mx (bD M) - X^T *m X) (Flags (f_sym (bfl M)) (f_pd (bfl M)) false false)))
  else Ok (Op (mx (bD M) - mx (bC M) *m invmx (mx (bA M)) *m mx (bB M)) (Flags (f_sym (bfl M)) (f_pd (bfl M)) false false)).

(** [schur_update] ([_block.py] 226-231). *)
Definition b2_schur_update m n (M : block2 m n) (A_inv_u : 'cV[F]_m) (v : 'cV[F]_n) : result 'cV[F]_(m + n) :=
  if is_block_diagonal M then Ok (col_mx A_inv_u (invmx (mx (bD M)) *m v))
  else bind (b2_schur M) (fun S =>
    let y := invmx (mx S) *m (v - mx (bC M) *m A_inv_u) in
    let x := A_inv_u - invmx (mx (bA M)) *m mx (bB M) *m y in
    Ok (col_mx x y)).

(** [_cholesky] ([_block.py] 233-242). *)
Definition b2_cholesky m n (M : block2 m n) (lower : bool) : result (block2 m n) :=
  let A_sqrt := op_cholesky (bA M) in
  bind (L_A_inv_B M) (fun X =>
  bind (b2_schur M) (fun S =>
  let S_sqrt := op_cholesky S in
  if lower then mk_block2 A_sqrt None (Some (Op X^T no_flags)) S_sqrt false
  else mk_block2 (op_T A_sqrt) (Some (Op X no_flags)) None (op_T S_sqrt) false)).

(** [_solve] ([_block.py] 244-268) without the symmetric branch;
    [tri] is [config.block_triangular_solves]. *)
Definition b2_solve_ns (tri : bool) m n p (M : block2 m n) (b : 'M[F]_(m + n, p)) : 'M[F]_(m + n, p) :=
  let b0 := usubmx b in let b1 := dsubmx b in
  if is_block_diagonal M then col_mx (invmx (mx (bA M)) *m b0) (invmx (mx (bD M)) *m b1)
  else if f_lo (bfl M) then
    if tri then
      let y0 := invmx (mx (bA M)) *m b0 in
      let y1 := invmx (mx (bD M)) *m (b1 - mx (bC M) *m y0) in col_mx y0 y1
    else invmx (b2_todense M) *m b
  else if f_up (bfl M) then
    if tri then
      let y1 := invmx (mx (bD M)) *m b1 in
      let y0 := invmx (mx (bA M)) *m (b0 - mx (bB M) *m y1) in col_mx y0 y1
    else invmx (b2_todense M) *m b
  else invmx (b2_todense M) *m b.
(** [_solve] with the symmetric branch: the factor [L] and [L.T] carry no
    symmetry flag, so solving with them uses the other branches. *)
Definition b2_solve (tri : bool) m n p (M : block2 m n) (b : 'M[F]_(m + n, p)) : result 'M[F]_(m + n, p) :=
  if is_block_diagonal M then Ok (b2_solve_ns tri M b)
  else if f_sym (bfl M) then
    bind (b2_cholesky M true) (fun L => bind (b2_T L) (fun LT => Ok (b2_solve_ns tri LT (b2_solve_ns tri L b))))
  else Ok (b2_solve_ns tri M b).

(** [_det] ([_block.py] 281-292). *)
Definition b2_det m n (M : block2 m n) : result F :=
  if [|| is_block_diagonal M, f_lo (bfl M) | f_up (bfl M)] then Ok (\det (mx (bA M)) * \det (mx (bD M)))
  else if f_sym (bfl M) && f_pd (bfl M) then bind (b2_schur M) (fun S => Ok (\det (mx (bA M)) * \det (mx S)))
  else Ok (\det (b2_todense M)).
End Model.
