(** Model of the dtype of results: NumPy and JAX evaluation of polynomials and piecewise
    functions ([src/linpde_gp/functions/_polynomial.py], [_piecewise.py]) at arrays of
    integers and arrays of floats.
    Simplified: an array is the list of its entries; integers are unbounded, floats are
    reals; NumPy's [UFuncTypeError] is a [TypeError]. *)
From Coq Require Import List Reals Bool Arith ZArith.
From Verif Require Import Base PolyModel PolyClassModel PiecewiseModel.
Import ListNotations.
Open Scope R_scope.

Inductive darr := AI (zs : list Z) | AF (xs : list R).
(** Conversion of a float to an integer type: truncation towards zero. *)
Definition trunc (r : R) : Z := if Rleb 0 r then Int_part r else (- Int_part (- r))%Z.
(** Conversion of arrays. *)
Definition floats (a : darr) : list R := match a with AI zs => map IZR zs | AF xs => xs end.
Definition ints (a : darr) : list Z := match a with AI zs => zs | AF xs => map trunc xs end.
(** [np.full_like(x, c)]: the dtype of [x]. *)
Definition full_like (x : darr) (c : R) : darr :=
  match x with AI zs => AI (map (fun _ => trunc c) zs) | AF xs => AF (map (fun _ => c) xs) end.
Fixpoint zip {A B C} (f : A -> B -> C) (l : list A) (m : list B) : list C :=
  match l, m with a :: l', b :: m' => f a b :: zip f l' m' | _, _ => [] end.
(** [res *= x]: the result must keep the dtype of [res]. *)
Definition imul (res x : darr) : result darr :=
  match res, x with
  | AI r, AI z => Ok (AI (zip Z.mul r z))
  | AI _, AF _ => Err TypeError
  | AF r, _ => Ok (AF (zip Rmult r (floats x)))
  end.
(** [res += c] for a Python float. *)
Definition iadd (res : darr) (c : R) : result darr :=
  match res with AI _ => Err TypeError | AF r => Ok (AF (map (fun y => y + c) r)) end.

(** [Polynomial._evaluate] (_polynomial.py:61-68); the coefficients are Python floats
    (43).  The list holds the coefficients below the leading one, highest first. *)
Fixpoint np_horner (res : darr) (cs : list R) (x : darr) : result darr :=
  match cs with
  | [] => Ok res
  | c :: cs' => bind (imul res x) (fun res => bind (iadd res c) (fun res => np_horner res cs' x))
  end.
Definition np_poly (p : pypoly) (x : darr) : result darr :=
  match rev (float_coeffs p) with
  | [] => Err IndexError
  | c :: cs => np_horner (full_like x c) cs x
  end.
(** [Polynomial._evaluate_jax] (_polynomial.py:70-77): JAX arrays are immutable, so
    [*=] and [+=] rebind the name and promote. *)
Definition jmul (res x : darr) : darr :=
  match res, x with AI r, AI z => AI (zip Z.mul r z) | _, _ => AF (zip Rmult (floats res) (floats x)) end.
Definition jadd (res : darr) (c : R) : darr := AF (map (fun y => y + c) (floats res)).
Fixpoint jax_horner (res : darr) (cs : list R) (x : darr) : darr :=
  match cs with [] => res | c :: cs' => jax_horner (jadd (jmul res x) c) cs' x end.
Definition jax_poly (p : pypoly) (x : darr) : result darr :=
  match rev (float_coeffs p) with
  | [] => Err IndexError
  | c :: cs => Ok (jax_horner (full_like x c) cs x)
  end.
(** [Monomial._evaluate] (_polynomial.py:32-33, jax 35-36): [x ** degree] for a Python
    integer keeps the dtype. *)
Definition np_monomial (n : nat) (x : darr) : darr :=
  match x with AI zs => AI (map (fun z => (z ^ Z.of_nat n)%Z) zs) | AF xs => AF (map (fun y => y ^ n) xs) end.

(** Calling a piece; [Constant._evaluate] (_constant.py:22-26) returns its own value. *)
Definition np_piece (f : piece) (x : darr) : result darr :=
  match f with
  | PcPoly p => np_poly p x
  | PcConst c => Ok (AF (map (fun _ => c) (floats x)))
  | PcFun g => Ok (AF (map g (floats x)))
  end.
(** Boolean indexing [x[cond]] and assignment [y[cond] = vals]. *)
Fixpoint select {A} (cond : list bool) (l : list A) : list A :=
  match cond, l with b :: cond', a :: l' => if b then a :: select cond' l' else select cond' l' | _, _ => [] end.
Definition dselect (cond : list bool) (x : darr) : darr :=
  match x with AI zs => AI (select cond zs) | AF xs => AF (select cond xs) end.
Fixpoint assign {A} (y : list A) (cond : list bool) (vals : list A) : list A :=
  match y, cond, vals with
  | a :: y', true :: cond', v :: vals' => v :: assign y' cond' vals'
  | a :: y', false :: cond', _ => a :: assign y' cond' vals
  | _, _, _ => y
  end.
Definition dassign (y : darr) (cond : list bool) (vals : darr) : darr :=
  match y with AI zs => AI (assign zs cond (ints vals)) | AF xs => AF (assign xs cond (floats vals)) end.
(** [np.piecewise(x, condlist, funclist)]: the result has the dtype of [x]; functions are
    called with the selected points, if there are any. *)
Definition np_select (x : darr) (fs : list (list bool * piece)) : result darr :=
  fold_left (fun acc '(cond, f) => bind acc (fun y =>
      if existsb (fun b => b) cond then bind (np_piece f (dselect cond x)) (fun v => Ok (dassign y cond v)) else Ok y))
    fs (Ok (full_like x 0)).
(** [Piecewise._evaluate] (_piecewise.py:53-64), [PiecewiseConstant._evaluate]
    (164-171; the list of functions is the array of values). *)
Definition np_pw (f : pw) (x : darr) : result darr :=
  let n := length (pw_fns f) in
  let xs := pw_xs f in
  if (n =? 0)%nat then Err IndexError
  else
    let conds :=
      match pw_kind f with
      | KConstant => map (fun i => map (fun t => half_open xs t i) (floats x)) (range 0 n)
      | _ => map (fun t => Rleb (knot xs 0) t && Rleb t (knot xs 1)) (floats x)
             :: map (fun i => map (fun t => half_open xs t i) (floats x)) (range 1 n)
      end in
    np_select x (combine conds (pw_fns f)).
