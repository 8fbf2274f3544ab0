(** Model of the jax programs of [AdModel] and [AdCovModel] in IEEE 754 arithmetic: the numbers of
    [Coq.Floats.SpecFloat] (signed zeros, subnormal numbers, infinities, one NaN), each primitive
    rounded to nearest even.  [jax_enable_x64] is set ([tests/linpde_gp/conftest.py] 3), so
    [prec = 53], [emax = 1024]; the model has any format.
    Outside the repository: the libraries' [exp], [sin] and [cos] are unknown functions of one
    number, and so is the rounding of a program's constants.  Simplified: XLA performs the
    primitives one by one (no contraction to fused multiply-adds, no reassociation). *)
From Coq Require Import List Reals Bool ZArith.
From Coq.Floats Require Import SpecFloat.
From Verif Require Import Base NdArray PolyModel PolyClassModel FunExprModel DiffopModel LfoModel KernelModel WendlandModel AdModel AdCovModel.
Import ListNotations.

Record lib := mklib {
  l_exp : spec_float -> spec_float;
  l_sin : spec_float -> spec_float;
  l_cos : spec_float -> spec_float;
  l_cst : R -> spec_float
}.

Section Format.
Variables prec emax : Z.
Notation fadd := (SFadd prec emax).
Notation fsub := (SFsub prec emax).
Notation fmul := (SFmul prec emax).
Notation fdiv := (SFdiv prec emax).
Definition fone : spec_float := SFone prec emax.

(** [lax.integer_pow]: square and multiply, the reciprocal for a negative exponent *)
Fixpoint fpow_pos (x : spec_float) (acc : option spec_float) (n : positive) : spec_float :=
  let acc' := match acc with None => x | Some a => fmul a x end in
  match n with
  | xH => acc'
  | xO n' => fpow_pos (fmul x x) acc n'
  | xI n' => fpow_pos (fmul x x) (Some acc') n'
  end.
Definition fpow (x : spec_float) (n : Z) : spec_float :=
  match n with Z0 => fone | Zpos n => fpow_pos x None n | Zneg n => fdiv fone (fpow_pos x None n) end.

(** Points: arrays of floating-point numbers *)
Definition farr := index -> spec_float.

(** A program run on two points: the programs of _expquad.py:14-26, _matern.py:15-46,
    _wendland.py:79-85, 218-221, _polynomial.py:70-77 and of
    [randprocs/covfuncs/linfuncops/diffops/{_expquad,_matern}.py]. *)
Fixpoint frun (lb : lib) (x0 x1 : farr) (p : prog) : spec_float :=
  match p with
  | PVar b i => if b then x1 i else x0 i
  | PCst c => l_cst lb c
  | PAdd p q => fadd (frun lb x0 x1 p) (frun lb x0 x1 q)
  | PSub p q => fsub (frun lb x0 x1 p) (frun lb x0 x1 q)
  | PMul p q => fmul (frun lb x0 x1 p) (frun lb x0 x1 q)
  | PDiv p q => fdiv (frun lb x0 x1 p) (frun lb x0 x1 q)
  | PNeg p => SFopp (frun lb x0 x1 p)
  | PExp p => l_exp lb (frun lb x0 x1 p)
  | PSqrt p => SFsqrt prec emax (frun lb x0 x1 p)
  | PSin p => l_sin lb (frun lb x0 x1 p)
  | PCos p => l_cos lb (frun lb x0 x1 p)
  | PPow p n => fpow (frun lb x0 x1 p) n
  | PWhere r p q => if SFleb (frun lb x0 x1 r) fone then frun lb x0 x1 p else frun lb x0 x1 q
  end.

(** [x1 = None]: ones for [ExpQuad] (_expquad.py:16-20); for [Matern] the distances are zeros
    (_jax.py:136-140) and the rest of the program is the same (_matern.py:23-46). *)
Definition expquad_none (lb : lib) : spec_float := fone.
Definition matern_none (lb : lib) (m : matern) : result spec_float :=
  match mt_nu m with
  | HalfInt p =>
      Ok (frun lb (fun _ => S754_zero false) (fun _ => S754_zero false)
           (PMul (horner_prog (float_coeffs (make_rational (half_integer_coefficients p))) (PVar false []))
                 (PExp (PNeg (PVar false [])))))
  | OtherNu _ _ => Err NotImplementedError
  end.
End Format.

(** Binary64 *)
Definition run64 := frun 53 1024.
