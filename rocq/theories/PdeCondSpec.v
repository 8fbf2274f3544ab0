(** Observing values and derivatives of a process: infinitely differentiable functions,
    points that agree, and covariance functions that leave no combination of observations
    without variance. *)
From Coq Require Import List Reals Lra Bool Arith.
From Verif Require Import Base NdArray FunExprModel DiffopModel DiffopSpec LfoModel LfoSpec KernelModel KernelSpec KernelProps PsdSpec.
Import ListNotations.
Open Scope R_scope.

(** Infinitely differentiable functions of points of shape [sh]: all iterated partial
    derivatives exist, along all lines, and their order does not matter. *)
Definition c_infty (sh : shape) (f : array -> R) : Prop :=
  smooth sh f /\ forall w i j, List.Forall (valid_index sh) w -> valid_index sh i -> valid_index sh j ->
    pd i (pd j (iterD w f)) = pd j (pd i (iterD w f)).
(** The two points have the same coordinates. *)
Definition agree (sh : shape) (x y : array) : Prop := forall i, valid_index sh i -> x i = y i.
(** Covariance functions with a squared exponential summand: no lengthscale of it is zero
    and its factor is positive. *)
Inductive kstrict (sh : shape) : kexpr -> Prop :=
| kstrict_exp e : eq_shape e = sh -> (forall i, valid_index sh i -> eq_len e i <> 0) -> kstrict sh (KExp e)
| kstrict_scale s x : 0 < s -> kstrict sh x -> kstrict sh (KScale s x)
| kstrict_left x y : kstrict sh x -> kpos sh y -> kstrict sh (KAdd x y)
| kstrict_right x y : kpos sh x -> kstrict sh y -> kstrict sh (KAdd x y).
(** The entry of the Gram matrix for two observations: the second operator on argument 1,
    then the first one on argument 0, at the two points. *)
Definition gram_entry (fuel : nat) (k : cov) (p q : obs) : result R :=
  bind (apply_to fuel (fst q) 1 k) (fun k1 => bind (apply_to fuel (fst p) 0 k1) (fun k0 =>
  match k0 with CNotImpl => Err TypeError | _ => Ok (ceval k0 (snd p) (snd q)) end)).
(** The observed quantity, for a function. *)
Definition observe (o : obs) (f : array -> R) : R := match fst o with None => f (snd o) | Some L => ksem L f (snd o) end.
(** Observations of functions of points of shape [sh]. *)
Definition obs_dom (sh : shape) (o : obs) : Prop := match fst o with None => True | Some L => okop L /\ opdom sh L end.
(** The observation tells something about infinitely differentiable functions. *)
Definition informative (sh : shape) (o : obs) : Prop := exists f, c_infty sh f /\ observe o f <> 0.
