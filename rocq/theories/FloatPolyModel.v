(** Model of [Polynomial] ([functions/_polynomial.py]) in IEEE 754 arithmetic, in double precision.
    The coefficients are doubles already; their conversion by [float] is outside of this model, and so is the class dispatch ([PolyClassModel]). *)
From Coq Require Import List Bool Arith ZArith.
From Coq.Floats Require Import SpecFloat.
From Verif Require Import Base FloatGridModel.
Import ListNotations.

Notation fpoly := (list spec_float).
Notation fzero := (S754_zero false).
(** _polynomial.py:40-48 ([Polynomial.__init__]) *)
Definition mk_fpoly (cs : fpoly) : fpoly := match cs with [] => [fzero] | _ => cs end.
(** _polynomial.py:54-56 ([degree]) *)
Definition fpdegree (p : fpoly) : nat := length p - 1.
(** _polynomial.py:61-68 ([_evaluate]) at a double; 70-77 ([_evaluate_jax]) is the same *)
Definition fpeval (p : fpoly) (x : spec_float) : spec_float :=
  fold_left (fun res k => fadd (fmul res x) (nth k p S754_nan)) (rev (seq 0 (fpdegree p))) (nth (fpdegree p) p S754_nan).
(** _polynomial.py:88-91 ([differentiate]); the product of a float and an integer *)
Definition fpdiff (p : fpoly) : fpoly :=
  mk_fpoly (map (fun ck => fmul (fst ck) (of_nat (snd ck))) (combine (tl p) (seq 1 (length (tl p))))).
(** _polynomial.py:93-96 ([integrate]) *)
Definition fpint (p : fpoly) : fpoly :=
  mk_fpoly (fzero :: map (fun ck => fdiv (fst ck) (of_nat (snd ck + 1))) (combine p (seq 0 (length p)))).
(** _polynomial.py:98-99 ([__neg__]) *)
Definition fpneg (p : fpoly) : fpoly := mk_fpoly (map SFopp p).
(** [itertools.zip_longest] with fill value 0, which becomes the double 0 when it is added to or subtracted from *)
Fixpoint fzip (f : spec_float -> spec_float -> spec_float) (p q : fpoly) : fpoly :=
  match p with
  | [] => map (f fzero) q
  | a :: p' => match q with [] => f a fzero :: fzip f p' [] | b :: q' => f a b :: fzip f p' q' end
  end.
(** _polynomial.py:127-136 ([__add__] with a polynomial) *)
Definition fpadd (p q : fpoly) : fpoly := mk_fpoly (fzip fadd p q).
(** _polynomial.py:139-148 ([__sub__] with a polynomial) *)
Definition fpsub (p q : fpoly) : fpoly := mk_fpoly (fzip fsub p q).
(** _polynomial.py:105-107 ([__add__] with a constant) *)
Definition fpadd_const (p : fpoly) (v : spec_float) : fpoly := mk_fpoly (fadd (nth 0 p S754_nan) v :: tl p).
(** _polynomial.py:113-120 ([__rmul__] with a number) *)
Definition fpscale (a : spec_float) (p : fpoly) : fpoly := mk_fpoly (map (fmul a) p).
(** _polynomial.py:151-163 ([__floordiv__] by the monomial of degree [d]) *)
Definition fpfloordiv (p : fpoly) (d : nat) : result fpoly :=
  if negb (d <=? fpdegree p)%nat then Err ValueError
  else if existsb (fun c => negb (SFeqb c fzero)) (firstn d p) then Err ValueError
  else Ok (mk_fpoly (skipn d p)).
