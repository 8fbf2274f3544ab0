(** Linear functionals as a user writes them, the objects they build and what they
    mean. *)
From Coq Require Import List Reals Bool Arith.
From Coquelicot Require Import Coquelicot.
From Verif Require Import Base NdArray NdData BlockModel CovModel CrossModel PolyClassModel FunExprModel DiffopModel LfoModel LfoSpec FunctlModel.
Import ListNotations.
Open Scope R_scope.

(** Values at the points [X] (point before output index, or after it), integrals,
    functionals given by their action, linear combinations, a matrix after a functional,
    an operator before it, and the values of an operator with outputs of shape [cod] at
    points. *)
Inductive fexpr :=
| EDirac (dom cod : shape) (X : nd RF)
| EEval (dom cod : shape) (X : nd RF)
| EInt (a b : R) (cod : shape)
| EAct (dom cod out : shape) (act : (array -> array) -> array)
| EScale (s : R) (e : fexpr)
| ENeg (e : fexpr)
| EAdd (e1 e2 : fexpr)
| ESub (e1 e2 : fexpr)
| EPost (A : @mat RF) (e : fexpr)
| EPre (e : fexpr) (M : oexpr)
| EValues (cod : shape) (M : oexpr) (X : nd RF).
Fixpoint fbuild (e : fexpr) : result lfn :=
  match e with
  | EDirac dom cod X => bind (mk_evalf true dom cod X) (fun e => Ok (LEv e))
  | EEval dom cod X => bind (mk_evalf false dom cod X) (fun e => Ok (LEv e))
  | EInt a b cod => Ok (LInt a b cod)
  | EAct dom cod out act => Ok (LAct dom cod out act)
  | EScale s e => bind (fbuild e) (fun L => Ok (l_scale s L))
  | ENeg e => bind (fbuild e) (fun L => Ok (l_neg L))
  | EAdd e1 e2 => bind (fbuild e1) (fun L => bind (fbuild e2) (fun M => l_add L M))
  | ESub e1 e2 => bind (fbuild e1) (fun L => bind (fbuild e2) (fun M => l_sub L M))
  | EPost A e => bind (fbuild e) (fun L => l_rmatmul A L)
  | EPre e M => bind (fbuild e) (fun L => bind (obuild M) (fun P => l_matmul L P))
  | EValues _ M X => bind (obuild M) (fun P => to_linfunctl P X)
  end.

(** The point number [i] of [X]. *)
Definition point_at (X : nd RF) (i : index) : array := fun j => nat_ X (i ++ j).
(** The entry [r] of the value of the functional on the function [f]. *)
Fixpoint fmeaning (e : fexpr) (f : array -> array) (r : index) : R :=
  match e with
  | EDirac dom cod X => f (point_at X (firstn (length r - length cod) r)) (skipn (length r - length cod) r)
  | EEval dom cod X => f (point_at X (skipn (length cod) r)) (firstn (length cod) r)
  | EInt a b cod => RInt (fun t => f (fun _ => t) r) a b
  | EAct _ _ _ act => act f r
  | EScale s e => s * fmeaning e f r
  | ENeg e => - fmeaning e f r
  | EAdd e1 e2 => fmeaning e1 f r + fmeaning e2 f r
  | ESub e1 e2 => fmeaning e1 f r - fmeaning e2 f r
  | EPost A e => total (map (fun k => entry A (hd 0%nat r) k * fmeaning e f [k]) (seq 0 (ncols A)))
  | EPre e M => fmeaning e (omeaning M f) r
  | EValues cod M X => omeaning M f (point_at X (skipn (length cod) r)) (firstn (length cod) r)
  end.
(** The functional takes functions of shapes [i] and returns arrays of shape [o]. *)
Inductive fty : fexpr -> shape * shape -> shape -> Prop :=
| ft_dirac dom cod X b : nshape X = b ++ dom -> fty (EDirac dom cod X) (dom, cod) (b ++ cod)
| ft_eval dom cod X b : nshape X = b ++ dom -> fty (EEval dom cod X) (dom, cod) (cod ++ b)
| ft_int a b cod : fty (EInt a b cod) ([], cod) cod
| ft_act dom cod out act :
    (forall f g, (forall x k, valid_index cod k -> f x k = g x k) -> forall r, valid_index out r -> act f r = act g r) ->
    fty (EAct dom cod out act) (dom, cod) out
| ft_scale s e i o : fty e i o -> fty (EScale s e) i o
| ft_neg e i o : fty e i o -> fty (ENeg e) i o
| ft_add e1 e2 i o : fty e1 i o -> fty e2 i o -> fty (EAdd e1 e2) i o
| ft_sub e1 e2 i o : fty e1 i o -> fty e2 i o -> fty (ESub e1 e2) i o
| ft_post A e i : fty e i [ncols A] -> fty (EPost A e) i [nrows A]
| ft_pre e M i m o : fty e m o -> oty M i m -> fty (EPre e M) i o
| ft_values M X b i dom cod : oty M i (dom, cod) -> nshape X = b ++ dom -> fty (EValues cod M X) i (cod ++ b).
(** The differential operators in the expression are well-formed, the actions depend only
    on the values of the function, and output shapes are declared as they are. *)
Fixpoint fleaves (e : fexpr) : Prop :=
  match e with
  | EDirac _ _ _ | EEval _ _ _ | EInt _ _ _ => True
  | EAct dom cod out act =>
      forall f g, (forall x k, valid_index cod k -> f x k = g x k) -> forall r, valid_index out r -> act f r = act g r
  | EScale _ e | ENeg e | EPost _ e => fleaves e
  | EAdd e1 e2 | ESub e1 e2 => fleaves e1 /\ fleaves e2
  | EPre e M => fleaves e /\ (forall d, In d (x_diffs M) -> dwf d)
  | EValues cod M _ => (forall d, In d (x_diffs M) -> dwf d) /\ forall P, obuild M = Ok P -> snd (o_out P) = cod
  end.
