(** What users write: multiples of operators, and linear combinations of weak forms. *)
From Coq Require Import List Reals Bool Arith.
From Coquelicot Require Import Coquelicot.
From Verif Require Import Base FemModel WeakFormModel.
Import ListNotations.
Open Scope R_scope.

Inductive wexpr := WE_lap (sh : list nat) | WE_other (sh : list nat) | WE_scale (s : R) (e : wexpr) | WE_neg (e : wexpr).
Fixpoint wbuild (e : wexpr) : wop :=
  match e with
  | WE_lap sh => WLaplacian sh | WE_other sh => WOther sh
  | WE_scale s e => w_scale s (wbuild e) | WE_neg e => w_neg (wbuild e)
  end.
(** The multiple of the Laplacian that is written. *)
Fixpoint multiple (e : wexpr) : option R :=
  match e with
  | WE_lap _ => Some 1 | WE_other _ => None
  | WE_scale s e => option_map (Rmult s) (multiple e) | WE_neg e => option_map Ropp (multiple e)
  end.
Inductive fexp := FE_weak (e : wexpr) (test : basis) | FE_scale (s : R) (f : fexp) | FE_neg (f : fexp) | FE_add (f g : fexp) | FE_sub (f g : fexp).
Fixpoint fbuild (x : fexp) : result wfn :=
  match x with
  | FE_weak e t => weak_form (wbuild e) t
  | FE_scale s f => bind (fbuild f) (fun f => Ok (f_scale s f))
  | FE_neg f => bind (fbuild f) (fun f => Ok (f_neg f))
  | FE_add f g => bind (fbuild f) (fun f => bind (fbuild g) (f_add f))
  | FE_sub f g => bind (fbuild f) (fun f => bind (fbuild g) (f_sub f))
  end.
(** The same expression on numbers, [v] being the value of the weak form of the Laplacian with the test
    basis. *)
Fixpoint fvalue (x : fexp) (v : basis -> R) : R :=
  match x with
  | FE_weak e t => match multiple e with Some s => s * v t | None => 0 end
  | FE_scale s f => s * fvalue f v
  | FE_neg f => - fvalue f v
  | FE_add f g => fvalue f v + fvalue g v
  | FE_sub f g => fvalue f v - fvalue g v
  end.
(** All test bases that occur are [b]. *)
Fixpoint tests (x : fexp) : list basis :=
  match x with FE_weak _ t => [t] | FE_scale _ f | FE_neg f => tests f | FE_add f g | FE_sub f g => tests f ++ tests g end.
Fixpoint operators (x : fexp) : list wexpr :=
  match x with FE_weak e _ => [e] | FE_scale _ f | FE_neg f => operators f | FE_add f g | FE_sub f g => operators f ++ operators g end.
