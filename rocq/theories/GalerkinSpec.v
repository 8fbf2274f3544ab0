(** The covariance of a process whose projection and residual are made independent. *)
From Coq Require Import List Arith Reals.
From Verif Require Import Base ParamSpec.
Import ListNotations.

Section Spec.
Context {F : fops} {X : Type}.
(** [P] is linear on the class [D] of functions: linear combinations of functions in [D]
    are in [D] and projected to the linear combination. *)
Definition linear_on (D : (X -> F) -> Prop) (n : nat) (P : (X -> F) -> nat -> F) : Prop :=
  forall (l : list (F * (X -> F))) (h : X -> F), (forall p, In p l -> D (snd p)) ->
    (forall x, h x = fsum (map (fun p => fmul (fst p) (snd p x)) l)) ->
    D h /\ forall i, i < n -> P h i = fsum (map (fun p => fmul (fst p) (P (snd p) i)) l).
(** [P f] as a function: [sum_i (P f)_i phi_i] *)
Definition project (n : nat) (phi : X -> nat -> F) (P : (X -> F) -> nat -> F) (f : X -> F) : X -> F :=
  fun x => fsum (map (fun i => fmul (phi x i) (P f i)) (seq 0 n)).
Definition residual (n : nat) (phi : X -> nat -> F) (P : (X -> F) -> nat -> F) (f : X -> F) : X -> F :=
  fun x => fsub (f x) (project n phi P f x).
(** An operator on functions applied to both arguments of a kernel, second argument first. *)
Definition both (T : (X -> F) -> X -> F) (k : X -> X -> F) : X -> X -> F :=
  fun x y => T (fun x' => T (k x') y) x.
(** [P k P* + (I - P) k (I - P)*] *)
Definition decoupled (n : nat) (phi : X -> nat -> F) (P : (X -> F) -> nat -> F) (k : X -> X -> F) : X -> X -> F :=
  fun x y => fadd (both (project n phi P) k x y) (both (residual n phi P) k x y).
(** The basis is reproduced: [P phi_j = e_j]. *)
Definition reproduces (n : nat) (phi : X -> nat -> F) (P : (X -> F) -> nat -> F) : Prop :=
  forall i j, i < n -> j < n -> P (fun x => phi x j) i = if i =? j then f1 else f0.
End Spec.

(** The variance of [sum_p c_p f(x_p) + sum_i d_i (P f)_i] for a process [f] with
    covariance [k], where [kP x i] is the covariance of [f(x)] and [(P f)_i], and [C] the
    covariance matrix of [P f]. *)
Definition joint_variance {X : Type} (n : nat) (k : X -> X -> RF) (kP : X -> nat -> RF) (C : nat -> nat -> RF)
    (l : list (R * X)) (d : nat -> RF) : R :=
  (@fsum RF (map (fun p => @fsum RF (map (fun q => (fst p * fst q * k (snd p) (snd q))%R) l)) l)
   + 2 * @fsum RF (map (fun p => (fst p * @dot RF n (kP (snd p)) d)%R) l)
   + @bilinear RF n C d d)%R.
