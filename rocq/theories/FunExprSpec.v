(** Expression trees written by a user, and their meaning. *)
From Coq Require Import List Reals.
From Verif Require Import Base PolyClassModel NdArray FunExprModel.
Import ListNotations.
Open Scope R_scope.

Inductive expr :=
| ELeaf (f : fn)
| EAdd (a b : expr)
| ESub (a b : expr)
| ENeg (a : expr)
| EScale (s : pyscalar) (a : expr).

(** What the expression means at a point. *)
Fixpoint meaning (e : expr) (x : array) (k : index) : R :=
  match e with
  | ELeaf f => feval f x k
  | EAdd a b => meaning a x k + meaning b x k
  | ESub a b => meaning a x k - meaning b x k
  | ENeg a => - meaning a x k
  | EScale s a => scalar_value s * meaning a x k
  end.

(** What Python builds. *)
Fixpoint build (e : expr) : result fn :=
  match e with
  | ELeaf f => Ok f
  | EAdd a b => bind (build a) (fun f => bind (build b) (fun g => fn_add f g))
  | ESub a b => bind (build a) (fun f => bind (build b) (fun g => fn_sub f g))
  | ENeg a => bind (build a) (fun f => Ok (fn_neg f))
  | EScale s a => bind (build a) (fun f => Ok (fn_scale s f))
  end.

(** Leaves of an expression. *)
Fixpoint leaves (e : expr) : list fn :=
  match e with
  | ELeaf f => [f]
  | EAdd a b | ESub a b => leaves a ++ leaves b
  | ENeg a | EScale _ a => leaves a
  end.
