(** Model of [src/linpde_gp/functions/_piecewise.py] and of the integral of
    piecewise functions in [src/linpde_gp/functions/_linfunctls.py].
    Simplified: evaluation at one point [x] instead of an array of points; the
    dtype of the result is not modelled here. *)
From Coq Require Import List Reals Bool Arith Qcanon.
From Coquelicot Require Import Coquelicot.
From Verif Require Import Base PolyModel PolyClassModel.
Import ListNotations.
Open Scope R_scope.

(** The functions that occur as pieces: (rational) polynomials, [Constant]s,
    and any other scalar function, given by its values. *)
Inductive piece :=
| PcPoly (p : pypoly)
| PcConst (c : R)
| PcFun (g : R -> R).

(** Calling a piece (_polynomial.py:61-68; _constant.py:22-26). *)
Definition piece_eval (f : piece) (x : R) : R :=
  match f with
  | PcPoly p => py_eval p x
  | PcConst c => c
  | PcFun g => g x
  end.

(** [float * piece]: _polynomial.py:112-120 (Polynomial), _constant.py:38-42
    (Constant), _jax.py:49-58 and _jax_arithmetic.py:35-48 (JaxScaledFunction). *)
Definition piece_scale (c : R) (f : piece) : piece :=
  match f with
  | PcPoly p => PcPoly (py_scale (SFloat c) p)
  | PcConst v => PcConst (c * v)
  | PcFun g => PcFun (fun x => c * g x)
  end.

(** [piece + Polynomial]: _polynomial.py:127-136; for any other piece the
    JaxSumFunction of _jax.py:41-47, _jax_arithmetic.py:67-70. *)
Definition piece_add_poly (f : piece) (q : pypoly) : piece :=
  match f with
  | PcPoly p => PcPoly (py_add p q)
  | PcConst c => PcFun (fun x => c + py_eval q x)
  | PcFun g => PcFun (fun x => g x + py_eval q x)
  end.

(** [piece + Constant]: _polynomial.py:105-107; _constant.py:45-49;
    JaxSumFunction otherwise. *)
Definition piece_add_const (f : piece) (c : R) : piece :=
  match f with
  | PcPoly p => PcPoly (py_add_const p c)
  | PcConst v => PcConst (v + c)
  | PcFun g => PcFun (fun x => g x + c)
  end.

(** _piecewise.py:16, 89, 145: the three classes. *)
Inductive pwkind := KPiecewise | KLinear | KConstant.
Record pw := mkpw { pw_kind : pwkind; pw_xs : list R; pw_fns : list piece }.

(** _piecewise.py:17-39 ([Piecewise.__init__]), for a 1-d knot array and scalar
    pieces: the number of pieces must be [xs.size - 1]. *)
Definition piecewise_init (k : pwkind) (xs : list R) (fns : list piece) : result pw :=
  if S (length fns) =? length xs then Ok (mkpw k xs fns) else Err ValueError.

(** _piecewise.py:146-158 ([PiecewiseConstant.__init__]), 1-d [ys]. *)
Definition piecewise_constant (xs ys : list R) : result pw :=
  piecewise_init KConstant xs (map PcConst ys).

(** [np.piecewise] at one point: the last condition that holds wins, the
    default value is 0. *)
Definition np_piecewise (conds : list bool) (vals : list R) : R :=
  fold_left (fun acc cv => if fst cv : bool then snd cv else acc) (combine conds vals) 0.

Definition knot (xs : list R) (i : nat) : R := nth i xs 0.

(** [(xs[i] < x) & (x <= xs[i + 1])] *)
Definition half_open (xs : list R) (x : R) (i : nat) : bool :=
  Rltb (knot xs i) x && Rleb x (knot xs (i + 1)).

(** _piecewise.py:53-64 ([Piecewise._evaluate]; 66-77 is the jax version) and
    164-170 ([PiecewiseConstant._evaluate]; 172-180 jax version).  Without pieces
    the access [self._xs[1]] raises IndexError; [PiecewiseConstant] passes an
    empty condition list, for which [np.piecewise] raises IndexError as well
    ([condlist[0]]). *)
Definition pw_eval (f : pw) (x : R) : result R :=
  let n := length (pw_fns f) in
  let xs := pw_xs f in
  if (n =? 0)%nat then Err IndexError
  else
    let conds :=
      match pw_kind f with
      | KConstant => map (half_open xs x) (range 0 n)
      | _ => (Rleb (knot xs 0) x && Rleb x (knot xs 1))
             :: map (half_open xs x) (range 1 n)
      end in
    Ok (np_piecewise conds (map (fun g => piece_eval g x) (pw_fns f))).

(** _piecewise.py:79-86 and 135-142 ([float * piecewise]).  A
    [PiecewiseConstant] inherits the first one and becomes a [Piecewise]. *)
Definition pw_scale (c : R) (f : pw) : result pw :=
  piecewise_init (match pw_kind f with KLinear => KLinear | _ => KPiecewise end)
    (pw_xs f) (map (piece_scale c) (pw_fns f)).

(** _piecewise.py:113-125 ([PiecewiseLinear + Polynomial]). *)
Definition pwlinear_add_poly (f : pw) (q : pypoly) : result pw :=
  piecewise_init (if py_degree q =? 1 then KLinear else KPiecewise)%nat
    (pw_xs f) (map (fun g => piece_add_poly g q) (pw_fns f)).

(** _piecewise.py:127-133 ([PiecewiseLinear + Constant]). *)
Definition pwlinear_add_const (f : pw) (c : R) : result pw :=
  piecewise_init KLinear (pw_xs f) (map (fun g => piece_add_const g c) (pw_fns f)).

(** _piecewise.py:90-103 ([PiecewiseLinear.from_points]); [zip] stops at the
    shortest of its arguments. *)
Definition linear_piece (l r y_l y_r : R) : piece :=
  let slope := (y_r - y_l) / (r - l) in
  let offset := y_l - slope * l in
  PcPoly (make_float [offset; slope]).
Fixpoint linear_pieces (xs ys : list R) : list piece :=
  match xs, ys with
  | l :: ((r :: _) as xs'), y_l :: ((y_r :: _) as ys') =>
      linear_piece l r y_l y_r :: linear_pieces xs' ys'
  | _, _ => []
  end.
Definition from_points (xs ys : list R) : result pw :=
  piecewise_init KLinear xs (linear_pieces xs ys).

(** [np.searchsorted(xs, v, side="right")] on a sorted array: number of entries
    that are [<= v]. *)
Definition searchsorted_right (xs : list R) (v : R) : nat :=
  length (filter (fun x => Rleb x v) xs).

(** [LebesgueIntegral((l, r))(piece)]: domains/_interval.py:16-24 (l > r raises),
    functions/_linfunctls.py:8-13 (polynomials), linfunctls/_integrals.py:60-62
    (constants: value times volume), 36-56 (other functions: numerical
    quadrature, idealised as the exact Riemann integral). *)
Definition piece_integral (f : piece) (l r : R) : result R :=
  if Rltb r l then Err ValueError
  else Ok (match f with
           | PcPoly p => poly_lebesgue l r p
           | PcConst c => c * (r - l)
           | PcFun g => RInt g l r
           end).

(** functions/_linfunctls.py:16-34. *)
Fixpoint zip3 {A B C} (l1 : list A) (l2 : list B) (l3 : list C) : list (A * B * C) :=
  match l1, l2, l3 with
  | x :: l1', y :: l2', z :: l3' => (x, y, z) :: zip3 l1' l2' l3'
  | _, _, _ => []
  end.
Definition pw_lebesgue (a b : R) (f : pw) : result R :=
  if Rltb b a then Err ValueError   (* Interval(a, b), domains/_interval.py:20-21 *)
  else
    let idx_stop := searchsorted_right (pw_xs f) b in
    match searchsorted_right (pw_xs f) a with
    | O => Err ValueError           (* idx_start == -1 *)
    | S idx_start =>
        let xs := [a] ++ slice (pw_xs f) (idx_start + 1) (idx_stop - 1) ++ [b] in
        let fs := slice (pw_fns f) idx_start (idx_stop - 1) in
        bind (mapM (fun '(g, l, r) => piece_integral g l r)
                   (zip3 fs (removelast xs) (tl xs)))
             (fun vs => Ok (fold_left Rplus vs 0))
    end.
