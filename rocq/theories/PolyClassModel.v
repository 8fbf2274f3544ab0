(** Class dispatch between [Polynomial] (float coefficients) and its subclass
    [RationalPolynomial] (exact [Fraction] coefficients), and the definite
    integral of polynomials. *)
From Coq Require Import List Reals QArith Qcanon Qreals ZArith.
From Verif Require Import Base PolyModel.
Import ListNotations.

(** Exact rational as a real number (Python [float(Fraction)], rounding not
    modelled). *)
Definition Qc2R (q : Qc) : R := Q2R (this q).

Inductive pypoly :=
| PFloat (cs : poly RF)     (* _polynomial.py:39-48  Polynomial *)
| PRat (cs : poly QcF).     (* _polynomial.py:166-175 RationalPolynomial *)

(** [.coefficients]: for a RationalPolynomial the super-constructor stores the
    float conversion of every Fraction (_polynomial.py:175, 43). *)
Definition float_coeffs (p : pypoly) : poly RF :=
  match p with PFloat cs => cs | PRat cs => map Qc2R cs end.

(** [Polynomial(coeffs)] (_polynomial.py:40-48) and
    [RationalPolynomial(coeffs)] (_polynomial.py:167-175). *)
Definition make_float (cs : list R) : pypoly := PFloat (@mkpoly RF cs).
Definition make_rational (cs : list Qc) : pypoly := PRat (@mkpoly QcF cs).

(** Evaluation uses the float coefficients for both classes
    (_polynomial.py:61-68). *)
Definition py_eval (p : pypoly) (x : R) : R := @peval RF (float_coeffs p) x.

(** [.degree] (_polynomial.py:54-56). *)
Definition py_degree (p : pypoly) : nat := pdegree (float_coeffs p).

(** [differentiate] (88-91 / 201-204), [integrate] (93-96 / 206-210),
    [__neg__] (98-99 / 212-213): each class returns its own class. *)
Definition py_diff (p : pypoly) : pypoly :=
  match p with PFloat c => PFloat (pdiff c) | PRat c => PRat (pdiff c) end.
Definition py_integrate (p : pypoly) : pypoly :=
  match p with PFloat c => PFloat (pintegrate c) | PRat c => PRat (pintegrate c) end.
Definition py_neg (p : pypoly) : pypoly :=
  match p with PFloat c => PFloat (pneg c) | PRat c => PRat (pneg c) end.

(** [p + q] (127-136, 215-217, 240-249): exact only if both are rational,
    otherwise [Polynomial.__add__] on float coefficients. *)
Definition py_add (p q : pypoly) : pypoly :=
  match p, q with
  | PRat a, PRat b => PRat (padd a b)
  | _, _ => PFloat (padd (float_coeffs p) (float_coeffs q))
  end.

(** [p - q] (139-148, 219-221, 252-261). *)
Definition py_sub (p q : pypoly) : pypoly :=
  match p, q with
  | PRat a, PRat b => PRat (psub a b)
  | _, _ => PFloat (psub (float_coeffs p) (float_coeffs q))
  end.

(** [p + Constant(c)] (105-107): always a float polynomial. *)
Definition py_add_const (p : pypoly) (c : R) : pypoly :=
  PFloat (padd_const (float_coeffs p) c).

(** Scalars that may appear on the left of [*]. *)
Inductive pyscalar := SInt (z : Z) | SFrac (q : Qc) | SFloat (r : R).
Definition scalar_value (s : pyscalar) : R :=
  match s with SInt z => IZR z | SFrac q => Qc2R q | SFloat r => r end.

(** [s * p] (113-120, 227-229, 277-282). *)
Definition py_scale (s : pyscalar) (p : pypoly) : pypoly :=
  match p, s with
  | PRat a, SInt z => PRat (@pscale QcF (Q2Qc (inject_Z z)) a)
  | PRat a, SFrac q => PRat (@pscale QcF q a)
  | _, _ => PFloat (@pscale RF (scalar_value s) (float_coeffs p))
  end.

(** [p // Monomial(m)] (151-163, 311-323). *)
Definition py_floordiv (p : pypoly) (m : nat) : result pypoly :=
  match p with
  | PFloat a => bind (pfloordiv_monomial a m) (fun c => Ok (PFloat c))
  | PRat a => bind (pfloordiv_monomial a m) (fun c => Ok (PRat c))
  end.

(** functions/_linfunctls.py:9-13 ([LebesgueIntegral] of a [Polynomial]):
    antiderivative at the upper bound minus at the lower bound. *)
Definition poly_lebesgue (a b : R) (f : pypoly) : R :=
  let F := py_integrate f in (py_eval F b - py_eval F a)%R.
