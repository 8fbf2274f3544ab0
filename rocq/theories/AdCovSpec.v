(** Operators in one argument of functions of two points; covariance functions away from their
    singularities. *)
From Coq Require Import List Reals Bool Arith.
From Verif Require Import Base NdArray FunExprModel DiffopModel LfoModel KernelModel AdSpec.
Import ListNotations.
Open Scope R_scope.

Definition unit_vec (i : index) : array := fun j => if shape_eqb j i then 1 else 0.
(** The operator in the first ([b = false]) or second argument. *)
Definition op_deriv (d : dop) (b : bool) (k : points -> R) : points -> R :=
  match d with
  | DPartial a | DPartialNoJax a =>
      derivs (flat_map (fun '(i, n) => repeat (b, unit_vec i) n) (combine (all_indices (mi_shape a)) (mi_arr a))) k
  | DLap _ sh w => fun e => rsum (map (fun i => w i * derivs [(b, unit_vec i); (b, unit_vec i)] k e) (all_indices sh))
  | DDir _ v => derivs [(b, v)] k
  end.
(** Operators one after the other; arguments are numbered 0 and 1. *)
Fixpoint ops_deriv (ops : list (dop * nat)) (k : points -> R) : points -> R :=
  match ops with [] => k | (d, a) :: ops' => ops_deriv ops' (op_deriv d (negb (a =? 0)%nat) k) end.

Definition nonzero (sh : shape) (len : array) : Prop := forall i, valid_index sh i -> len i <> 0.
(** Lengthscales are not zero. *)
Fixpoint scales (c : cov) : Prop :=
  match c with
  | CExp e | CExpDir e _ _ | CExpDirDir e _ _ | CExpLap e _ _ | CExpLapLap e _ _ | CExpDirLap e _ _ _ => nonzero (eq_shape e) (eq_len e)
  | CMat m | CMatDir m _ _ _ | CMatDirDir m _ _ _ _ | CUMatDirDir m _ _ _ | CUMatLap m _ _ _
  | CUMatLapLap m _ _ _ | CUMatDirLap m _ _ _ _ => nonzero (mt_shape m) (mt_len m) /\ 0 < nu_val (mt_nu m)
  | CScaled _ c => scales c
  | CSum cs => (fix go cs := match cs with [] => True | c :: cs' => scales c /\ go cs' end) cs
  | CJax _ _ | CNotImpl => True
  end.
(** The Matérn covariance functions that occur. *)
Fixpoint materns (c : cov) : list matern :=
  match c with
  | CMat m | CMatDir m _ _ _ | CMatDirDir m _ _ _ _ | CUMatDirDir m _ _ _ | CUMatLap m _ _ _
  | CUMatLapLap m _ _ _ | CUMatDirLap m _ _ _ _ => [m]
  | CScaled _ c => materns c
  | CSum cs => (fix go cs := match cs with [] => [] | c :: cs' => materns c ++ go cs' end) cs
  | _ => []
  end.
(** The covariance functions that jax can trace: Matérn covariance functions have a half-integer
    parameter, sums have summands. *)
Fixpoint traceable (c : cov) : Prop :=
  match c with
  | CMat m => exists n, mt_nu m = HalfInt n
  | CScaled _ c => traceable c
  | CSum cs => cs <> [] /\ (fix go cs := match cs with [] => True | c :: cs' => traceable c /\ go cs' end) cs
  | CJax _ _ | CNotImpl => False
  | _ => True
  end.
