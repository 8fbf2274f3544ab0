(** Model of [PiecewiseLinear.from_points] and of its evaluation ([functions/_piecewise.py]) in IEEE 754 arithmetic, in double precision. *)
From Coq Require Import List Bool Arith ZArith.
From Coq.Floats Require Import SpecFloat.
From Verif Require Import Base FloatGridModel FloatPolyModel.
Import ListNotations.

(** One piece, _piecewise.py:98-101 *)
Definition flinear_piece (l r y_l y_r : spec_float) : fpoly :=
  let slope := fdiv (fsub y_r y_l) (fsub r l) in
  let offset := fsub y_l (fmul slope l) in
  mk_fpoly [offset; slope].
(** The loop, which stops with the shorter list, _piecewise.py:95-101 *)
Fixpoint flinear_pieces (xs ys : list spec_float) : list fpoly :=
  match xs, ys with
  | l :: xs', y_l :: ys' =>
      match xs', ys' with
      | r :: _, y_r :: _ => flinear_piece l r y_l y_r :: flinear_pieces xs' ys'
      | _, _ => []
      end
  | _, _ => []
  end.
(** _piecewise.py:90-103 ([from_points]) with the checks of 17-38 for lists of numbers *)
Record fpw := FPw { fw_xs : list spec_float; fw_fns : list fpoly }.
Definition ffrom_points (xs ys : list spec_float) : result fpw :=
  let pieces := flinear_pieces xs ys in
  if (length pieces + 1 =? length xs)%nat then Ok (FPw xs pieces) else Err ValueError.
(** _piecewise.py:53-64 ([_evaluate]) at a number, with [np.piecewise]: the last condition that holds, 0 if none does *)
Definition fcond (xs : list spec_float) (x : spec_float) (i : nat) : bool :=
  let knot k := nth k xs S754_nan in
  if (i =? 0)%nat then SFleb (knot 0%nat) x && SFleb x (knot 1%nat) else SFltb (knot i) x && SFleb x (knot (i + 1)%nat).
Definition fpw_eval (f : fpw) (x : spec_float) : result spec_float :=
  if (length (fw_xs f) <? 2)%nat then Err IndexError
  else Ok (fold_left (fun res i => if fcond (fw_xs f) x i then fpeval (nth i (fw_fns f) []) x else res) (seq 0 (length (fw_fns f))) fzero).
