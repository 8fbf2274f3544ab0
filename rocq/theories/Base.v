(** Shared vocabulary: Python exceptions as values, and the arithmetic
    structures over which the numeric code is modelled. *)
From Coq Require Import List Reals QArith Qcanon Field_theory.
Import ListNotations.

(** Exception classes raised by the modelled code. *)
Inductive exn :=
| ValueError | TypeError | KeyError | IndexError | ZeroDivisionError
| NotImplementedError | AttributeError | AssertionError | RecursionError
| Unmodelled  (* behaviour outside the model; no positive theorem concludes it *).

(** A Python call either returns a value or raises. *)
Inductive result (A : Type) :=
| Ok (a : A)
| Err (e : exn).
Arguments Ok {A} a.
Arguments Err {A} e.

Definition bind {A B} (r : result A) (f : A -> result B) : result B :=
  match r with Ok a => f a | Err e => Err e end.

(** Numeric carrier: the operations that the Python code applies to its
    numbers.  [Fraction] is the instance [QcF] (exact rationals), floats are
    idealised by the instance [RF] (real numbers). *)
Record fops := {
  car :> Type;
  f0 : car;
  f1 : car;
  fadd : car -> car -> car;
  fmul : car -> car -> car;
  fsub : car -> car -> car;
  fopp : car -> car;
  fdiv : car -> car -> car;
  finv : car -> car;
  feqb : car -> car -> bool
}.
Arguments f0 {f}.
Arguments f1 {f}.
Arguments fadd {f} _ _.
Arguments fmul {f} _ _.
Arguments fsub {f} _ _.
Arguments fopp {f} _.
Arguments fdiv {f} _ _.
Arguments finv {f} _.
Arguments feqb {f} _ _.

(** The field laws of a carrier. *)
Record flaws (F : fops) : Prop := {
  fl_field : field_theory (@f0 F) f1 fadd fmul fsub fopp fdiv finv eq;
  fl_eqb : forall x y : F, feqb x y = true <-> x = y;
  fl_char0 : forall n : nat,
      Nat.iter n (fadd f1) (@f0 F) = f0 -> n = 0%nat
}.

Definition QcF : fops := {|
  car := Qc; f0 := 0%Qc; f1 := 1%Qc; fadd := Qcplus; fmul := Qcmult;
  fsub := Qcminus; fopp := Qcopp; fdiv := Qcdiv; finv := Qcinv;
  feqb := fun x y => Qeq_bool (this x) (this y) |}.

Definition RF : fops := {|
  car := R; f0 := 0%R; f1 := 1%R; fadd := Rplus; fmul := Rmult;
  fsub := Rminus; fopp := Ropp; fdiv := Rdiv; finv := Rinv;
  feqb := fun x y => if Req_EM_T x y then true else false |}.

(** The image of a Python [int] n >= 0 in the carrier. *)
Fixpoint fnat {F : fops} (n : nat) : F :=
  match n with 0%nat => f0 | S m => fadd f1 (fnat m) end.

(** [x ** n] for a non-negative integer [n]. *)
Fixpoint fpow {F : fops} (x : F) (n : nat) : F :=
  match n with 0%nat => f1 | S m => fmul x (fpow x m) end.

(** Python's [sum] over a list of numbers (starts with 0). *)
Definition fsum {F : fops} (l : list F) : F := fold_right fadd f0 l.

(** Laws of the two instances. *)
Lemma fnat_iter (F : fops) n : Nat.iter n (fadd f1) (@f0 F) = fnat n.
Proof. induction n as [|n IH]; simpl; [reflexivity|]. now rewrite IH. Qed.

Lemma fnat_Qc n : @fnat QcF n = Q2Qc (inject_Z (Z.of_nat n)).
Proof.
  induction n as [|n IH]; [reflexivity|].
  cbn [fnat]. rewrite IH. cbn [fadd f1 QcF]. unfold Qcplus. apply Qc_is_canon.
  cbn [this Q2Qc]. rewrite !Qred_correct. rewrite Nat2Z.inj_succ.
  unfold Z.succ. rewrite inject_Z_plus. cbn. ring.
Qed.

Lemma QcF_laws : flaws QcF.
Proof.
  split.
  - exact Qcft.
  - intros x y. cbn. rewrite Qeq_bool_iff. split.
    + apply Qc_is_canon.
    + intros ->. reflexivity.
  - intros n H. rewrite fnat_iter, fnat_Qc in H.
    assert (H' : (this (Q2Qc (inject_Z (Z.of_nat n))) == 0)%Q).
    { rewrite H. reflexivity. }
    cbn [this Q2Qc] in H'. rewrite Qred_correct in H'.
    unfold Qeq in H'. cbn in H'. rewrite Z.mul_1_r in H'.
    now apply Nat2Z.inj.
Qed.

Lemma fnat_R n : @fnat RF n = INR n.
Proof.
  induction n as [|n IH]; [reflexivity|].
  rewrite S_INR. cbn [fnat]. rewrite IH. cbn. apply Rplus_comm.
Qed.

Lemma RF_laws : flaws RF.
Proof.
  split.
  - exact Rfield.
  - intros x y. cbn. destruct (Req_EM_T x y) as [e|e]; split; intros H;
      try reflexivity; try congruence.
  - intros n H. rewrite fnat_iter, fnat_R in H. now apply INR_eq.
Qed.

Lemma fpow_R (x : R) n : @fpow RF x n = pow x n.
Proof. induction n as [|n IH]; simpl; [reflexivity|]. cbn in IH. now rewrite IH. Qed.

(** Boolean comparisons of floats (idealised as reals). *)
Definition Rleb (x y : R) : bool := if Rle_dec x y then true else false.
Definition Rltb (x y : R) : bool := if Rlt_dec x y then true else false.
Definition Reqb (x y : R) : bool := if Req_EM_T x y then true else false.

Lemma Rleb_spec x y : Bool.reflect (x <= y)%R (Rleb x y).
Proof. unfold Rleb. destruct (Rle_dec x y); constructor; assumption. Qed.
Lemma Rltb_spec x y : Bool.reflect (x < y)%R (Rltb x y).
Proof. unfold Rltb. destruct (Rlt_dec x y); constructor; assumption. Qed.
Lemma Reqb_spec x y : Bool.reflect (x = y) (Reqb x y).
Proof. unfold Reqb. destruct (Req_EM_T x y); constructor; assumption. Qed.

(** Python slice [l[i:j]] for non-negative bounds. *)
Definition slice {A} (l : list A) (i j : nat) : list A := firstn (j - i) (skipn i l).

(** Evaluate calls from left to right; the first exception propagates. *)
Fixpoint mapM {A B} (f : A -> result B) (l : list A) : result (list B) :=
  match l with
  | [] => Ok []
  | x :: l' => bind (f x) (fun y => bind (mapM f l') (fun ys => Ok (y :: ys)))
  end.
