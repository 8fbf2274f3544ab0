(** Derivatives of functions of two points, for automatic differentiation. *)
From Coq Require Import List Reals Bool ZArith.
From Coquelicot Require Import Coquelicot.
From Verif Require Import Base NdArray FunExprModel DiffopModel LfoModel AdModel.
Import ListNotations.
Open Scope R_scope.

Definition points := (array * array)%type.
(** Move the first ([false]) or second ([true]) point along [v]. *)
Definition move (e : points) (b : bool) (t : R) (v : array) : points :=
  let m := fun x : array => fun j => x j + t * v j in if b then (fst e, m (snd e)) else (m (fst e), snd e).
(** The derivative along [v] in one of the points, and iterated such derivatives, the first of the
    list first. *)
Definition along (f : points -> R) (d : bool * array) : points -> R := fun e => Derive (fun t => f (move e (fst d) t (snd d))) 0.
Definition derivs (ds : list (bool * array)) (f : points -> R) : points -> R := fold_left along ds f.
(** Every one of the derivatives is taken of a function that is differentiable at the points. *)
Definition differentiable (ds : list (bool * array)) (f : points -> R) (e : points) : Prop :=
  forall ds1 b v ds2, ds = ds1 ++ (b, v) :: ds2 -> ex_derive (fun t => derivs ds1 f (move e b t v)) 0.
(** The points differ in a coordinate. *)
Definition apart (sh : shape) (e : points) : Prop := exists i, valid_index sh i /\ fst e i <> snd e i.
Definition coincide (sh : shape) (e : points) : Prop := forall i, valid_index sh i -> fst e i = snd e i.
(** The number of derivatives that an operator takes. *)
Definition order_of (d : dop) : nat :=
  match d with DPartial a | DPartialNoJax a => mi_order a | DLap _ _ _ => 2 | DDir _ _ => 1 end.
(** The meaning of a program over the reals. *)
Fixpoint pval (e : points) (p : prog) : R :=
  match p with
  | PVar b i => (if b then snd e else fst e) i
  | PCst c => c
  | PAdd p q => pval e p + pval e q
  | PSub p q => pval e p - pval e q
  | PMul p q => pval e p * pval e q
  | PDiv p q => pval e p / pval e q
  | PNeg p => - pval e p
  | PExp p => exp (pval e p)
  | PSqrt p => sqrt (pval e p)
  | PSin p => sin (pval e p)
  | PCos p => cos (pval e p)
  | PPow p n => powerRZ (pval e p) n
  | PWhere r p q => if Rle_dec (pval e r) 1 then pval e p else pval e q
  end.
(** The program meets no singularity at the points: no division by zero, no root of zero, and the cut-off is not at its edge. *)
Fixpoint reg (e : points) (p : prog) : Prop :=
  match p with
  | PVar _ _ | PCst _ => True
  | PAdd p q | PSub p q | PMul p q => reg e p /\ reg e q
  | PDiv p q => reg e p /\ reg e q /\ pval e q <> 0
  | PNeg p | PExp p | PSin p | PCos p => reg e p
  | PSqrt p => reg e p /\ 0 < pval e p
  | PPow p n => reg e p /\ ((0 <= n)%Z \/ pval e p <> 0)
  | PWhere r p q => reg e r /\ reg e p /\ reg e q /\ pval e r <> 1
  end.
(** Extended real numbers as floating-point numbers; [None] is "not a number". *)
Definition fl (a : option Rbar) : ext :=
  match a with Some (Finite r) => Fin r | Some p_infty => PInf | Some m_infty => MInf | None => NaN end.
