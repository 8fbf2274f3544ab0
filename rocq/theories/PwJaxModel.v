(** Model of the jax versions of piecewise functions ([functions/_piecewise.py], [_evaluate_jax]) under
    automatic differentiation.  [jnp.piecewise] is a [lax.switch] on the number of the last condition
    that holds (0: none), whose tangent is that of the branch taken.  Modelled at one point; pieces are
    polynomials and constants. *)
From Coq Require Import List Reals Bool Arith.
From Verif Require Import Base NdArray PolyModel PolyClassModel PiecewiseModel AdModel.
Import ListNotations.
Open Scope R_scope.

(** [fn.jax]: _polynomial.py:70-77 (the Horner loop of [poly_prog]), _constant.py:28-32; the jax versions
    of other functions are not modelled. *)
Definition piece_prog (g : piece) : result prog :=
  match g with PcPoly p => Ok (poly_prog p) | PcConst c => Ok (PCst c) | PcFun _ => Err Unmodelled end.
Fixpoint piece_progs (gs : list piece) : result (list prog) :=
  match gs with [] => Ok [] | g :: gs' => bind (piece_prog g) (fun p => bind (piece_progs gs') (fun ps => Ok (p :: ps))) end.
(** The branch for the last condition that holds; no condition: the constant 0. *)
Definition jnp_piecewise (conds : list bool) (branches : list prog) : prog :=
  fold_left (fun acc cb => if fst cb : bool then snd cb else acc) (combine conds branches) (PCst 0).
(** [(xs[i] < x) & (x <= xs[i + 1])] *)
Definition jax_cell (xs : list R) (x : R) (i : nat) : bool := Rltb (nth i xs 0) x && Rleb x (nth (S i) xs 0).
(** _piecewise.py:66-77, 173-180.  [PiecewiseConstant] passes its values, which are the values of its
    pieces.  Without pieces [self._xs\[1\]] raises IndexError; an empty list of conditions is not
    modelled. *)
Definition pw_branch (f : pw) (x : R) : result prog :=
  let n := length (pw_fns f) in
  let xs := pw_xs f in
  bind (piece_progs (pw_fns f)) (fun ps =>
  match pw_kind f with
  | KConstant => if (n =? 0)%nat then Err Unmodelled else Ok (jnp_piecewise (map (jax_cell xs x) (seq 0 n)) ps)
  | _ => if (n =? 0)%nat then Err IndexError
         else Ok (jnp_piecewise ((Rleb (nth 0 xs 0) x && Rleb x (nth 1 xs 0)) :: map (jax_cell xs x) (seq 1 (n - 1))) ps)
  end).
