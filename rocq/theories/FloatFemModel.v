(** Model of [UnivariateLinearInterpolationBasis] ([functions/bases/_fem.py]) in IEEE 754 arithmetic, in double precision.
    Outside the repository: [np.maximum(0, v)], which returns NaN for NaN. *)
From Coq Require Import List Bool Arith ZArith.
From Coq.Floats Require Import SpecFloat.
From Verif Require Import Base FloatGridModel.
Import ListNotations.

(** bases/_fem.py:8-36 ([__init__]) for a list of numbers; [fb_grid] is the attribute [_grid] with the sentinel points *)
Record fbasis := FBasis { fb_grid : list spec_float; fb_zero : bool }.
Definition fat (g : list spec_float) (i : nat) : spec_float := nth i g S754_nan.
Definition fbasis_init (grid : list spec_float) (zero_boundary : bool) : result fbasis :=
  let N := length grid in
  if (N <? 3)%nat then Err ValueError
  else if zero_boundary then Ok (FBasis grid true)
  else Ok (FBasis
    ([fsub (fat grid 0) (fsub (fat grid 1) (fat grid 0))] ++ grid
     ++ [fadd (fat grid (N - 1)) (fsub (fat grid (N - 1)) (fat grid (N - 2)))]) false).
(** The number of functions, bases/_fem.py:33-36, 106-107 *)
Definition fb_len (b : fbasis) : nat := length (fb_grid b) - 2.
(** The neighbouring points, bases/_fem.py:42-52 *)
Definition fx_im1 (b : fbasis) (i : nat) : spec_float := fat (fb_grid b) i.
Definition fx_i (b : fbasis) (i : nat) : spec_float := fat (fb_grid b) (i + 1).
Definition fx_ip1 (b : fbasis) (i : nat) : spec_float := fat (fb_grid b) (i + 2).
(** The normalization factors, bases/_fem.py:30-31; computed when needed here, stored there *)
Definition fleft_factor (b : fbasis) (i : nat) : spec_float := fdiv (SFone 53 1024) (fsub (fx_i b i) (fx_im1 b i)).
Definition fright_factor (b : fbasis) (i : nat) : spec_float := fdiv (SFone 53 1024) (fsub (fx_ip1 b i) (fx_i b i)).
(** [np.maximum(0, v)] *)
Definition fmaximum0 (v : spec_float) : spec_float :=
  match v with S754_nan => S754_nan | _ => if SFltb (S754_zero false) v then v else S754_zero false end.
(** bases/_fem.py:59-66 *)
Definition fhat_value (b : fbasis) (i : nat) (x : spec_float) : spec_float :=
  fmaximum0 (if SFltb x (fx_i b i)
             then fmul (fsub x (fx_im1 b i)) (fleft_factor b i)
             else fmul (fsub (fx_ip1 b i) x) (fright_factor b i)).
(** Component [i] of bases/_fem.py:58-72 ([_evaluate]) at a number *)
Definition fbasis_eval (b : fbasis) (x : spec_float) (i : nat) : spec_float :=
  let res := fhat_value b i x in
  if fb_zero b then res
  else
    let res := if SFltb x (fat (fb_grid b) 1) && (i =? 0)%nat then S754_zero false else res in
    if SFltb (fat (fb_grid b) (length (fb_grid b) - 2)) x && (i =? fb_len b - 1)%nat then S754_zero false else res.
(** bases/_fem.py:74-92 ([eval_elem]) at a number, for an index [0 <= i < len(basis)] *)
Definition feval_elem (b : fbasis) (i : nat) (x : spec_float) : spec_float :=
  let res := fhat_value b i x in
  if fb_zero b then res
  else
    let res := if SFltb x (fat (fb_grid b) 1) then S754_zero false else res in
    if SFltb (fat (fb_grid b) (length (fb_grid b) - 2)) x then S754_zero false else res.
(** bases/_fem.py:94-104 ([support_bounds]) for an index [0 <= i < len(basis)] *)
Definition fsupport (b : fbasis) (i : nat) : spec_float * spec_float :=
  if negb (fb_zero b) && (i =? 0)%nat then (fx_i b 0, fx_ip1 b 0)
  else if negb (fb_zero b) && (i =? fb_len b - 1)%nat then (fx_im1 b (fb_len b - 1), fx_i b (fb_len b - 1))
  else (fx_im1 b i, fx_ip1 b i).
