(** Model of [src/linpde_gp/functions/_polynomial.py].
    A polynomial object is its tuple of coefficients (lowest degree first).
    [Polynomial] stores floats (instance [RF]: floats idealised as reals);
    [RationalPolynomial] stores [Fraction]s (instance [QcF]). *)
From Coq Require Import List Arith Bool.
From Verif Require Import Base.
Import ListNotations.

Section Poly.
Context {F : fops}.

Definition poly := list F.

(** _polynomial.py:43-48 and 168-175 ([__init__]): an empty coefficient
    iterable is replaced by the tuple [(0,)]. *)
Definition mkpoly (cs : list F) : poly :=
  match cs with [] => [f0] | _ => cs end.

(** _polynomial.py:55-56 ([degree]). *)
Definition pdegree (p : poly) : nat := length p - 1.

(** Python [coeffs[i]] (only used with indices in range). *)
Definition pcoef (p : poly) (i : nat) : F := nth i p f0.

(** _polynomial.py:61-68 ([Polynomial._evaluate]); 70-77 ([_evaluate_jax]) and
    79-86 ([_evaluate_keops]) perform the same arithmetic.  [res] starts as
    the coefficient of index [degree]; the loop runs k = degree-1 .. 0.
    Simplified: one point of the array [x]; dtype is not modelled here (see
    DtypeModel). *)
Definition peval (p : poly) (x : F) : F :=
  fold_left (fun res k => fadd (fmul res x) (pcoef p k))
            (rev (seq 0 (pdegree p)))
            (pcoef p (pdegree p)).

(** _polynomial.py:32-36 ([Monomial._evaluate]). *)
Definition monomial_eval (deg : nat) (x : F) : F := fpow x deg.

(** _polynomial.py:88-91 and 201-204 ([differentiate]):
    [coeff * k for k, coeff in enumerate(coeffs[1:], start=1)]. *)
Fixpoint enum_mul (k : nat) (cs : list F) : list F :=
  match cs with
  | [] => []
  | c :: cs' => fmul c (fnat k) :: enum_mul (S k) cs'
  end.
Definition pdiff (p : poly) : poly := mkpoly (enum_mul 1 (tl p)).

(** _polynomial.py:93-96 and 206-210 ([integrate]):
    [(0,) + tuple(coeff / (i + 1) for i, coeff in enumerate(coeffs))]. *)
Fixpoint enum_div (i : nat) (cs : list F) : list F :=
  match cs with
  | [] => []
  | c :: cs' => fdiv c (fnat (i + 1)) :: enum_div (S i) cs'
  end.
Definition pintegrate (p : poly) : poly := mkpoly (f0 :: enum_div 0 p).

(** _polynomial.py:98-99 and 212-213 ([__neg__]). *)
Definition pneg (p : poly) : poly := mkpoly (map fopp p).

(** _polynomial.py:105-107 ([Polynomial + Constant]). *)
Definition padd_const (p : poly) (c : F) : poly :=
  mkpoly (fadd (pcoef p 0) c :: tl p).

(** _polynomial.py:113-120 ([scalar * Polynomial]) and 277-282
    ([Fraction/int * RationalPolynomial], either side). *)
Definition pscale (c : F) (p : poly) : poly := mkpoly (map (fmul c) p).

(** [itertools.zip_longest(xs, ys, fillvalue=0)] mapped with a binary op. *)
Fixpoint zip_longest (op : F -> F -> F) (xs ys : list F) : list F :=
  match xs, ys with
  | [], [] => []
  | x :: xs', [] => op x f0 :: zip_longest op xs' []
  | [], y :: ys' => op f0 y :: (fix go ys := match ys with
                                  | [] => []
                                  | y :: ys' => op f0 y :: go ys' end) ys'
  | x :: xs', y :: ys' => op x y :: zip_longest op xs' ys'
  end.

(** _polynomial.py:127-136 and 240-249 ([__add__]). *)
Definition padd (p q : poly) : poly := mkpoly (zip_longest fadd p q).

(** _polynomial.py:139-148 and 252-261 ([__sub__]). *)
Definition psub (p q : poly) : poly := mkpoly (zip_longest fsub p q).

(** Python [range(lo, hi)]. *)
Definition range (lo hi : nat) : list nat := seq lo (hi - lo).

(** _polynomial.py:264-274 ([RationalPolynomial * RationalPolynomial]).
    Python's [max(0, k - other.degree)] is truncated subtraction on nat. *)
Definition pmul (p q : poly) : poly :=
  mkpoly (map (fun k =>
      fsum (map (fun i => fmul (pcoef p i) (pcoef q (k - i)))
                (range (k - pdegree q) (Nat.min k (pdegree p) + 1))))
    (range 0 (pdegree p + pdegree q + 1))).

(** _polynomial.py:285-293 ([RationalPolynomial * Monomial]). *)
Definition pshift (p : poly) (deg : nat) : poly := mkpoly (repeat f0 deg ++ p).

(** _polynomial.py:296-308 ([divmod]).  One iteration of the loop body; the
    division raises ZeroDivisionError if the last coefficient of [other] is
    zero. *)
Definition divmod_step (other : poly) (st : result (list F * poly)) (i : nat)
  : result (list F * poly) :=
  bind st (fun '(quot_coeffs, rem) =>
    let lead := nth (length other - 1) other f0 in
    if feqb lead f0 then Err ZeroDivisionError
    else
      let c := fdiv (pcoef rem i) lead in
      Ok (quot_coeffs ++ [c],
          psub rem (pshift (pscale c other) (i - pdegree other)))).

Definition pdivmod (p other : poly) : result (poly * poly) :=
  bind (fold_left (divmod_step other)
          (rev (range (pdegree other) (pdegree p + 1)))
          (Ok ([], p)))
       (fun '(quot_coeffs, rem) => Ok (mkpoly (rev quot_coeffs), rem)).

(** _polynomial.py:151-163 and 311-323 ([// Monomial]). *)
Definition pfloordiv_monomial (p : poly) (deg : nat) : result poly :=
  if negb (deg <=? pdegree p) then Err ValueError
  else if existsb (fun c => negb (feqb c f0)) (firstn deg p) then Err ValueError
  else Ok (mkpoly (skipn deg p)).

End Poly.
Arguments poly F : clear implicits.

(** _polynomial.py:20-26 ([Monomial.__init__]): a negative degree raises. *)
From Coq Require Import ZArith.
Definition monomial_init (degree : Z) : result nat :=
  if (degree <? 0)%Z then Err ValueError else Ok (Z.to_nat degree).
