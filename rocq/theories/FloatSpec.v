(** What "symmetric in floating-point arithmetic" means, independently of the programs. *)
From Coq Require Import List Bool Arith Reals ZArith.
From Coq.Floats Require Import SpecFloat.
From Verif Require Import KernelModel.
Import ListNotations.

(** Numbers that compare equal, NaN counting as equal to itself: only the sign of a zero may differ. *)
Definition same_value (a b : spec_float) : Prop :=
  a = b \/ (exists s t, a = S754_zero s /\ b = S754_zero t).
Definition opposite (a b : spec_float) : Prop := same_value a (SFopp b).

(** How many derivatives a covariance function carries: the parity of the sum of the orders in both
    arguments ([true]: odd); [None] for a sum of both kinds and for functions without a program. *)
Fixpoint odd_order (c : cov) : option bool :=
  match c with
  | CExp _ | CMat _ => Some false
  | CExpDir _ _ _ | CMatDir _ _ _ _ => Some true
  | CExpDirDir _ _ _ | CMatDirDir _ _ _ _ _ | CUMatDirDir _ _ _ _ => Some false
  | CExpLap _ _ _ | CUMatLap _ _ _ _ => Some false
  | CExpLapLap _ _ _ | CUMatLapLap _ _ _ _ => Some false
  | CExpDirLap _ _ _ _ | CUMatDirLap _ _ _ _ _ => Some true
  | CScaled _ c => odd_order c
  | CSum cs =>
      (fix go (cs : list cov) : option bool :=
         match cs with
         | [] => None
         | [c] => odd_order c
         | c :: cs' => match odd_order c, go cs' with
                       | Some a, Some b => if Bool.eqb a b then Some a else None
                       | _, _ => None
                       end
         end) cs
  | CJax _ _ | CNotImpl => None
  end.

(** No first-order direction is involved: the programs see the points only through squares. *)
Fixpoint squares_only (c : cov) : bool :=
  match c with
  | CExp _ | CMat _ | CExpLap _ _ _ | CExpLapLap _ _ _
  | CUMatDirDir _ _ _ _ | CUMatLap _ _ _ _ | CUMatLapLap _ _ _ _ => true
  | CScaled _ c => squares_only c
  | CSum cs => (fix go (cs : list cov) : bool := match cs with [] => true | c :: cs' => squares_only c && go cs' end) cs
  | _ => false
  end.

(** The same derivatives with the two arguments exchanged, for covariance functions that say which
    argument was differentiated; directions and weights of two-sided derivatives stay in place. *)
Fixpoint mirrored (c : cov) : cov :=
  match c with
  | CExpDir e d r => CExpDir e d (negb r)
  | CMatDir m d r q => CMatDir m d (negb r) q
  | CExpLap e w r => CExpLap e w (negb r)
  | CUMatLap m w r q => CUMatLap m w (negb r) q
  | CExpDirLap e d w r => CExpDirLap e d w (negb r)
  | CUMatDirLap m d w r q => CUMatDirLap m d w (negb r) q
  | CScaled s c => CScaled s (mirrored c)
  | CSum cs => CSum (map mirrored cs)
  | _ => c
  end.
