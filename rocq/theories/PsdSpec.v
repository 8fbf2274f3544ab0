(** Positive semidefiniteness of covariance functions and of the joint covariances of
    derivatives: the variance the covariance functions assign to a linear combination of
    observations.  [ParamSpec.psd_kernel] says that all Gram matrices are positive
    semidefinite. *)
From Coq Require Import List Reals Lra Bool Arith.
From Verif Require Import Base NdArray FunExprModel DiffopModel LfoModel KernelModel KernelSpec KernelProps.
Import ListNotations.
Open Scope R_scope.

(** One observation of the process: an operator, or none, and a point. *)
Definition obs := (option lfo * array)%type.
(** [L(k, argnum=a)]. *)
Definition apply_to (fuel : nat) (o : option lfo) (a : nat) (k : cov) : result cov :=
  match o with None => Ok k | Some L => ccall fuel L k a end.
(** The cross-covariance of two observations: [M(L(k, argnum=0), argnum=1)] at their points. *)
Definition obs_cov (fuel : nat) (k : cov) (p q : obs) : result R :=
  bind (apply_to fuel (fst p) 0 k) (fun k0 => bind (apply_to fuel (fst q) 1 k0) (fun k1 =>
  match k1 with CNotImpl => Err TypeError | _ => Ok (ceval k1 (snd p) (snd q)) end)).
Fixpoint add_all (l : list (result R)) : result R :=
  match l with [] => Ok 0 | r :: l => bind r (fun a => bind (add_all l) (fun b => Ok (a + b))) end.
(** The variance of a linear combination of observations, with one call per pair. *)
Definition variance (fuel : nat) (k : cov) (l : list (R * obs)) : result R :=
  add_all (map (fun p => add_all (map (fun q => bind (obs_cov fuel k (snd p) (snd q)) (fun c => Ok (fst p * fst q * c))) l)) l).

(** Covariance functions built from squared exponential ones on points of shape [sh] by
    adding, by scaling with non-negative numbers, and by applying an operator to both
    arguments. *)
Inductive kpos (sh : shape) : kexpr -> Prop :=
| kpos_exp e : eq_shape e = sh -> kpos sh (KExp e)
| kpos_scale s x : 0 <= s -> kpos sh x -> kpos sh (KScale s x)
| kpos_add x y : kpos sh x -> kpos sh y -> kpos sh (KAdd x y)
| kpos_apply L x : okop L -> opdom sh L -> kpos sh x -> kpos sh (KApply L 1 (KApply L 0 x)).
