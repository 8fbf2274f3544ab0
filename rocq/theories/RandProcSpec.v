(** What a linear functional or operator makes of the mean and covariance of a process
    with scalar values. *)
From Coq Require Import List Reals Bool Arith.
From Coquelicot Require Import Coquelicot.
From Verif Require Import Base NdArray NdData BlockModel CovModel CrossModel PolyClassModel FunExprModel DiffopModel LfoModel LfoSpec FunctlModel FunctlSpec.
Import ListNotations.
Open Scope R_scope.

(** A functional as a linear combination of point evaluations, integrals and given actions
    (possibly after an operator): coefficients and functionals for the entry [r] of its
    value. *)
Definition pre_op (op : option lfo) (l : (array -> R) -> R) : (array -> R) -> R :=
  match op with Some P => fun f => l (fun x => osem P (fun y _ => f y) x []) | None => l end.
Fixpoint lterms (L : lfn) (r : index) : list (R * ((array -> R) -> R)) :=
  match L with
  | LEv e => [(1, fun f => f (point_at (ev_X e) r))]
  | LInt a b _ => [(1, fun f => RInt (fun t => f (fun _ => t)) a b)]
  | LWeak _ => []
  | LAct _ _ _ act => [(1, fun f => act (fun x _ => f x) r)]
  | LScaled s M => map (fun t => (s * fst t, snd t)) (lterms M r)
  | LSum Ls => flat_map (fun M => lterms M r) Ls
  | LComp (Some A) M op =>
      flat_map (fun k => map (fun t => (entry A (hd 0%nat r) k * fst t, pre_op op (snd t))) (lterms M [k])) (seq 0 (ncols A))
  | LComp None M op => map (fun t => (fst t, pre_op op (snd t))) (lterms M r)
  end.
(** The linear combination of the values [w]. *)
Definition weigh {A} (ts : list (R * A)) (w : A -> R) : R := total (map (fun t => fst t * w (snd t)) ts).
(** The entries of the mean and covariance of the functional of a process with mean [m] and
    covariance function [v]. *)
Definition lin_mean (L : lfn) (m : array -> R) (r : index) : R := weigh (lterms L r) (fun l => l m).
Definition lin_cov (L : lfn) (v : array -> array -> R) (s r : index) : R :=
  weigh (lterms L s) (fun l => weigh (lterms L r) (fun l' => l (fun x => l' (v x)))).

(** Functionals that contain a point evaluation, and functionals in which no matrix is
    applied to point evaluations. *)
Fixpoint evaluates (L : lfn) : bool :=
  match L with
  | LEv _ => true
  | LInt _ _ _ | LWeak _ | LAct _ _ _ _ => false
  | LScaled _ M | LComp _ M _ => evaluates M
  | LSum Ls => existsb evaluates Ls
  end.
Fixpoint matrices_ok (L : lfn) : bool :=
  match L with
  | LEv _ | LInt _ _ _ | LWeak _ | LAct _ _ _ _ => true
  | LScaled _ M | LComp None M _ => matrices_ok M
  | LComp (Some _) M _ => matrices_ok M && negb (evaluates M)
  | LSum Ls => forallb matrices_ok Ls
  end.
(** Functionals without operators, and combinations of point evaluations, also of
    derivatives (an operator other than the identity). *)
Fixpoint no_operator (L : lfn) : bool :=
  match L with
  | LEv _ | LInt _ _ _ | LAct _ _ _ _ => true
  | LWeak _ => false
  | LScaled _ M | LComp _ M None => no_operator M
  | LComp _ _ (Some _) => false
  | LSum Ls => forallb no_operator Ls
  end.
Fixpoint identity_free (P : lfo) : bool :=
  match P with
  | OId _ _ => false
  | ODiff _ => true
  | OScaled _ Q => identity_free Q
  | OSum Ps | OComp Ps => forallb identity_free Ps
  end.
Fixpoint only_values (L : lfn) : bool :=
  match L with
  | LEv _ => true
  | LScaled _ M | LComp None M None => only_values M
  | LComp None M (Some P) => only_values M && identity_free P
  | LSum Ls => forallb only_values Ls
  | LInt _ _ _ | LWeak _ | LAct _ _ _ _ | LComp (Some _) _ _ => false
  end.

(** Operators whose summands need not be differentiated together: no sums, or no operator
    after a sum.  Functionals in which such operators are followed by no operator (if they
    are sums) apply to every section of a covariance function as to a linear combination. *)
Fixpoint single_term (P : lfo) : bool :=
  match P with
  | OId _ _ | ODiff _ => true
  | OScaled _ Q => single_term Q
  | OSum _ => false
  | OComp Ps => forallb single_term Ps
  end.
Fixpoint sums_last (P : lfo) : bool :=
  match P with
  | OId _ _ | ODiff _ => true
  | OScaled _ Q => sums_last Q
  | OSum Ps => forallb sums_last Ps
  | OComp Ps => match Ps with [] => true | Q :: Ps' => sums_last Q && forallb single_term Ps' end
  end.
Fixpoint tame (L : lfn) : bool :=
  match L with
  | LEv _ | LInt _ _ _ | LWeak _ | LAct _ _ _ _ => true
  | LScaled _ M | LComp _ M None => tame M
  | LComp _ M (Some P) => tame M && (single_term P || sums_last P && no_operator M)
  | LSum Ls => forallb tame Ls
  end.

(** The covariance function after an operator has been applied in both arguments. *)
Definition both (P : lfo) (v : array -> array -> R) : array -> array -> R :=
  fun x y => osem P (fun x' _ => osem P (fun y' _ => v x' y') y []) x [].
Fixpoint op_cov (P : lfo) (v : array -> array -> R) : array -> array -> R :=
  match P with
  | OComp Ps => fold_right op_cov v Ps
  | _ => both P v
  end.

(** Functionals (without operators) and functions whose value is computed by quadrature
    only: the integral of a function that is neither constant, zero nor a polynomial, or of
    a sum of such functions; sums of such functionals. *)
Inductive by_quadrature : lfn -> fn -> Prop :=
| bq_other a b cod i o g : by_quadrature (LInt a b cod) (FOther i o g)
| bq_summands a b cod gs : (forall g, In g gs -> by_quadrature (LInt a b cod) g) -> by_quadrature (LInt a b cod) (FSum gs)
| bq_sum Ls f : (forall M, In M Ls -> by_quadrature M f) -> by_quadrature (LSum Ls) f
| bq_comp M f : by_quadrature M f -> by_quadrature (LComp None M None) f.

(** Classes of cross-covariances for which no operator has a rule. *)
Definition no_rule (p : pvcc RF) : bool :=
  match p with PLeaf _ _ _ _ _ | PParam _ _ _ _ _ | PLinOp _ _ | PStack _ _ => true | PScaled _ _ | PSum _ | PZero _ _ _ _ | PEval _ _ _ => false end.
