(** What linear operators on functions mean: partial derivatives as derivatives in
    one coordinate, smoothness, and the action of an operator expression. *)
From Coq Require Import List Reals Bool Arith ZArith.
From Coquelicot Require Import Coquelicot.
From Verif Require Import Base NdArray PolyClassModel FunExprModel FunExprProofs DiffopModel DiffopSpec LfoModel.
Import ListNotations.
Open Scope R_scope.

Definition total (l : list R) : R := fold_right Rplus 0 l.
(** [x] with the coordinate [i] replaced by [t]. *)
Definition upd (x : array) (i : index) (t : R) : array := fun j => if list_eq_dec Nat.eq_dec j i then t else x j.
(** The partial derivative in the coordinate [i]. *)
Definition pd (i : index) (f : array -> R) : array -> R := fun x => Derive (fun t => f (upd x i t)) (x i).
(** The partial derivative of a multi-index. *)
Definition pderiv (a : mi) (f : array -> R) : array -> R :=
  fold_left (fun h i => Nat.iter (mi_entry a i) (pd i) h) (all_indices (mi_shape a)) f.
Definition iterD (l : list index) (f : array -> R) : array -> R := fold_left (fun h i => pd i h) l f.
(** All iterated partial derivatives are differentiable along every line, with the
    derivative given by the gradient. *)
Definition smooth (sh : shape) (f : array -> R) : Prop :=
  forall l, List.Forall (valid_index sh) l -> forall v x : array,
    is_derive (fun t => iterD l f (fun j => x j + t * v j)) 0
      (total (map (fun i => v i * pd i (iterD l f) x) (all_indices sh))).

Definition dsem (d : dop) (f : array -> R) : array -> R :=
  match d with
  | DPartial a | DPartialNoJax a => pderiv a f
  | DLap _ sh w => fun x => total (map (fun i => w i * pd i (pd i f) x) (all_indices sh))
  | DDir sh v => fun x => total (map (fun i => v i * pd i f x) (all_indices sh))
  end.
(** The action of an operator on a function. *)
Fixpoint osem (L : lfo) (F : array -> array) : array -> array :=
  match L with
  | OId _ _ => F
  | ODiff d => fun x _ => dsem d (fun y => F y []) x
  | OScaled s M => fun x k => s * osem M F x k
  | OSum Ls => fun x k => total (map (fun M => osem M F x k) Ls)
  | OComp Ls => fold_right (fun M h => osem M h) F Ls
  end.

(** Operators that the constructors produce; partial derivatives of order zero are
    treated separately. *)
Definition dwf (d : dop) : Prop :=
  match d with DPartial a | DPartialNoJax a => mi_wf a /\ mi_order a <> 0%nat | _ => True end.
Inductive wfo : lfo -> Prop :=
| wo_id dom cod : wfo (OId dom cod)
| wo_diff d : dwf d -> wfo (ODiff d)
| wo_scaled s L : wfo L -> wfo (OScaled s L)
| wo_sum L Ls : (forall M, In M (L :: Ls) -> wfo M) ->
    (forall M, In M (L :: Ls) -> o_in M = o_in L /\ o_out M = o_out L) -> wfo (OSum (L :: Ls))
| wo_comp1 L : wfo L -> wfo (OComp [L])
| wo_comp L M Ls : wfo L -> wfo (OComp (M :: Ls)) -> o_in L = o_out M -> wfo (OComp (L :: M :: Ls)).

(** Functions whose opaque scalar components are smooth. *)
Fixpoint leaf_fns (f : fn) : list fn :=
  match f with FScaled _ g => leaf_fns g | FSum gs => flat_map leaf_fns gs | _ => [f] end.
Definition fsm (f : fn) : Prop :=
  forall i g, In (FOther i [] g) (leaf_fns f) -> smooth i (fun x => g x []).

(** Operator expressions as a user writes them, the objects they build, and what
    they mean. *)
Inductive oexpr :=
| XId (dom cod : shape)
| XDiff (d : dop)
| XScale (s : R) (e : oexpr)
| XNeg (e : oexpr)
| XAdd (e1 e2 : oexpr)
| XSub (e1 e2 : oexpr)
| XComp (e1 e2 : oexpr).
Fixpoint obuild (e : oexpr) : result lfo :=
  match e with
  | XId dom cod => Ok (OId dom cod)
  | XDiff d => Ok (ODiff d)
  | XScale s e => bind (obuild e) (fun L => Ok (o_scale s L))
  | XNeg e => bind (obuild e) (fun L => Ok (o_neg L))
  | XAdd e1 e2 => bind (obuild e1) (fun L => bind (obuild e2) (fun M => o_add L M))
  | XSub e1 e2 => bind (obuild e1) (fun L => bind (obuild e2) (fun M => o_sub L M))
  | XComp e1 e2 => bind (obuild e1) (fun L => bind (obuild e2) (fun M => o_matmul L M))
  end.
Fixpoint omeaning (e : oexpr) (F : array -> array) : array -> array :=
  match e with
  | XId _ _ => F
  | XDiff d => fun x _ => dsem d (fun y => F y []) x
  | XScale s e => fun x k => s * omeaning e F x k
  | XNeg e => fun x k => - omeaning e F x k
  | XAdd e1 e2 => fun x k => omeaning e1 F x k + omeaning e2 F x k
  | XSub e1 e2 => fun x k => omeaning e1 F x k - omeaning e2 F x k
  | XComp e1 e2 => omeaning e1 (omeaning e2 F)
  end.
(** The expression maps functions of shapes [i] to functions of shapes [o]. *)
Inductive oty : oexpr -> shape * shape -> shape * shape -> Prop :=
| ty_id dom cod : oty (XId dom cod) (dom, cod) (dom, cod)
| ty_diff d : dwf d -> oty (XDiff d) (d_dom d, []) (d_dom d, [])
| ty_scale s e i o : oty e i o -> oty (XScale s e) i o
| ty_neg e i o : oty e i o -> oty (XNeg e) i o
| ty_add e1 e2 i o : oty e1 i o -> oty e2 i o -> oty (XAdd e1 e2) i o
| ty_sub e1 e2 i o : oty e1 i o -> oty e2 i o -> oty (XSub e1 e2) i o
| ty_comp e1 e2 i m o : oty e1 m o -> oty e2 i m -> oty (XComp e1 e2) i o.
(** The differential operators an expression mentions. *)
Fixpoint x_diffs (e : oexpr) : list dop :=
  match e with
  | XId _ _ => []
  | XDiff d => [d]
  | XScale _ e | XNeg e => x_diffs e
  | XAdd e1 e2 | XSub e1 e2 | XComp e1 e2 => x_diffs e1 ++ x_diffs e2
  end.
