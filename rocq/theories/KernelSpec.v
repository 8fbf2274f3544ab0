(** What derivatives of a covariance function mean: operators act on one argument
    with the other one fixed; the kernels themselves as formulas. *)
From Coq Require Import List Reals Bool Arith.
From Coquelicot Require Import Coquelicot.
From Verif Require Import Base NdArray FunExprModel DiffopModel DiffopSpec LfoModel LfoSpec.
Import ListNotations.
Open Scope R_scope.

Definition kernel := array -> array -> R.
(** The operation [T] on functions of one point, applied to the argument [a] of a
    kernel: argument 0 is the first point, argument 1 the second. *)
Definition in_arg (a : nat) (T : (array -> R) -> array -> R) (k : kernel) : kernel :=
  fun x0 x1 => match a with O => T (fun x => k x x1) x0 | _ => T (fun x => k x0 x) x1 end.
(** The action of an operator expression on scalar functions. *)
Fixpoint ksem (L : lfo) (f : array -> R) : array -> R :=
  match L with
  | OId _ _ => f
  | ODiff d => dsem d f
  | OScaled s M => fun x => s * ksem M f x
  | OSum Ls => fun x => total (map (fun M => ksem M f x) Ls)
  | OComp Ls => fold_right (fun M h => ksem M h) f Ls
  end.
(** Operator expressions whose multi-indices have as many entries as their shape says. *)
Fixpoint okop (L : lfo) : Prop :=
  match L with
  | OId _ _ => True
  | ODiff (DPartial a) | ODiff (DPartialNoJax a) => mi_wf a
  | ODiff _ => True
  | OScaled _ M => okop M
  | OSum Ls | OComp Ls => fold_right (fun M P => okop M /\ P) True Ls
  end.

(** The squared exponential kernel with lengthscales [l]. *)
Definition expquad_fun (sh : shape) (l : array) : kernel :=
  fun x0 x1 => exp (- (/ 2) * total (map (fun i => ((x0 i - x1 i) / l i) ^ 2) (all_indices sh))).
(** The weighted Euclidean distance of the points. *)
Definition wdist (sh : shape) (s : array) (x0 x1 : array) : R :=
  sqrt (total (map (fun i => (s i * (x0 i - x1 i)) ^ 2) (all_indices sh))).
(** Every differential operator in the expression acts on functions of points of shape [sh]. *)
Fixpoint opdom (sh : shape) (L : lfo) : Prop :=
  match L with
  | OId _ _ => True
  | ODiff d => d_dom d = sh
  | OScaled _ M => opdom sh M
  | OSum Ls | OComp Ls => fold_right (fun M P => opdom sh M /\ P) True Ls
  end.
(** The Matérn correlation of smoothness [p + 1/2] at the scaled distance [r]. *)
Definition matern_half (p : nat) (r : R) : R :=
  exp (- r) * (INR (fact p) / INR (fact (2 * p))) *
  sum_f_R0 (fun i => INR (fact (p + i)) / (INR (fact i) * INR (fact (p - i))) * (2 * r) ^ (p - i)) p.
(** The Matérn kernel of smoothness [p + 1/2] with lengthscales [l]. *)
Definition matern_fun (sh : shape) (l : array) (p : nat) : kernel :=
  fun x0 x1 => matern_half p (wdist sh (fun i => sqrt (2 * INR p + 1) / l i) x0 x1).
(** The kernel has partial derivatives in argument [a] at every pair of points. *)
Definition diff_in (a : nat) (sh : shape) (k : kernel) : Prop :=
  forall x0 x1 i, valid_index sh i ->
  match a with
  | O => ex_derive (fun t => k (upd x0 i t) x1) (x0 i)
  | _ => ex_derive (fun t => k x0 (upd x1 i t)) (x1 i)
  end.
(** [k'] is the operator applied to the argument [a] of [k], where all the derivatives
    involved exist. *)
Definition derivative_of (a : nat) (d : dop) (k k' : kernel) : Prop :=
  diff_in a (d_dom d) k /\
  (match d with DDir _ _ => True | _ => forall i, valid_index (d_dom d) i -> diff_in a (d_dom d) (in_arg a (pd i) k) end) /\
  forall x0 x1, k' x0 x1 = in_arg a (dsem d) k x0 x1.
