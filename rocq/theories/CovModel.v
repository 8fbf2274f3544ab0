(** Model of [randvars/_covariance.py].

    A covariance is either an array of shape [shape0 + shape1] or a linear
    operator, modelled by the matrix it represents ([BlockModel.mat]).
    [NotImplemented] returned by an arithmetic method becomes the TypeError Python
    raises for it.  Caching ([cached_property], [todense(cache=True)]) is not
    modelled. *)
From Coq Require Import List Arith Bool.
From Verif Require Import Base NdArray NdData BlockModel.
Import ListNotations.

Section Cov.
Context {F : fops}.

(** [ArrayCovariance] (137-161) and [LinearOperatorCovariance] (197-213): the stored
    shapes and representation. *)
Inductive covariance :=
  | ArrayCov (shape0 shape1 : shape) (cov_array : nd F)
  | LinOpCov (shape0 shape1 : shape) (cov_linop : mat F).

(** [shape0], [shape1] (55-58, 68-71) *)
Definition cshape0 (c : covariance) : shape := match c with ArrayCov s _ _ | LinOpCov s _ _ => s end.
Definition cshape1 (c : covariance) : shape := match c with ArrayCov _ s _ | LinOpCov _ s _ => s end.
(** [size0], [size1] (64-66, 77-79): [functools.reduce(operator.mul, shape, 1)] *)
Definition csize0 (c : covariance) : nat := fold_left Nat.mul (cshape0 c) 1.
Definition csize1 (c : covariance) : nat := fold_left Nat.mul (cshape1 c) 1.

(** [ArrayCovariance.__init__] (146-160) *)
Definition array_cov (a : nd F) (s0 s1 : shape) : result covariance :=
  if shape_eqb (nshape a) (s0 ++ s1) then Ok (ArrayCov s0 s1 a) else Err ValueError.
(** [ArrayCovariance.from_scalar] (138-144) *)
Definition from_scalar (v : F) : result covariance := array_cov (Nd [] (fun _ => v)) [] [].
(** [LinearOperatorCovariance.__init__] (198-212) *)
Definition linop_cov (l : mat F) (s0 s1 : shape) : result covariance :=
  if (nrows l =? fold_left Nat.mul s0 1) && (ncols l =? fold_left Nat.mul s1 1)
  then Ok (LinOpCov s0 s1 l) else Err ValueError.

(** A matrix as a 2-D array and back. *)
Definition nd_of_mat (m : mat F) : nd F :=
  Nd [nrows m; ncols m] (fun i => match i with [a; b] => entry m a b | _ => f0 end).
Definition mat_of_nd (a : nd F) : mat F :=
  match nshape a with
  | [r; c] => mkmat r c (fun i j => nat_ a [i; j])
  | _ => mkmat 0 0 (fun _ _ => f0)
  end.

(** [matrix] (170-172, 222-224) *)
Definition cmatrix (c : covariance) : result (mat F) :=
  match c with
  | ArrayCov _ _ a => bind (reshape a [csize0 c; csize1 c]) (fun m => Ok (mat_of_nd m))
  | LinOpCov _ _ l => Ok l
  end.
(** [linop] (166-168, 218-220): [aslinop] of a matrix is that matrix. *)
Definition clinop (c : covariance) : result (mat F) :=
  match c with
  | ArrayCov _ _ _ => cmatrix c
  | LinOpCov _ _ l => Ok l
  end.
(** [array] (162-164, 214-216) *)
Definition carray (c : covariance) : result (nd F) :=
  match c with
  | ArrayCov _ _ a => Ok a
  | LinOpCov s0 s1 l => reshape (nd_of_mat l) (s0 ++ s1)
  end.

(** [flatten0], [flatten1] (114-134) *)
Definition flatten0 (c : covariance) (e : nd F) : result (nd F) :=
  if shape_eqb (nshape e) (cshape0 c) then reshape e [size (nshape e)] else Err ValueError.
Definition flatten1 (c : covariance) (e : nd F) : result (nd F) :=
  if shape_eqb (nshape e) (cshape1 c) then reshape e [size (nshape e)] else Err ValueError.

(** [__rmul__] (191-194, 243-248); the left factor is an array of any shape *)
Definition crmul (t : nd F) (c : covariance) : result covariance :=
  match nshape t with
  | [] =>
    match c with
    | ArrayCov s0 s1 a => array_cov (nd_map (fmul (nat_ t [])) a) s0 s1
    | LinOpCov s0 s1 l =>
        linop_cov (mkmat (nrows l) (ncols l) (fun i j => fmul (nat_ t []) (entry l i j))) s0 s1
    end
  | _ => Err TypeError
  end.
(** [__neg__] (174-175, 226-227): [-1.0 * self] *)
Definition cneg (c : covariance) : result covariance := crmul (Nd [] (fun _ => fopp f1)) c.
(** [LinearOperatorCovariance.__add__] (229-238) *)
Definition cadd_linop (s0 s1 : shape) (l : mat F) (other : covariance) : result covariance :=
  if shape_eqb s0 (cshape0 other) && shape_eqb s1 (cshape1 other)
  then bind (clinop other) (fun o => linop_cov (mat_add l o) s0 s1) else Err TypeError.
(** [__add__] (177-186, 229-238) *)
Definition cadd (c other : covariance) : result covariance :=
  match c with
  | ArrayCov s0 s1 a =>
      match other with
      | ArrayCov t0 t1 b =>
          if shape_eqb s0 t0 && shape_eqb s1 t1 then array_cov (nd_map2 fadd a b) s0 s1 else Err TypeError
      | LinOpCov t0 t1 l => cadd_linop t0 t1 l c
      end
  | LinOpCov s0 s1 l => cadd_linop s0 s1 l other
  end.
(** [__sub__] (188-189, 240-241): [self + (-other)] *)
Definition csub (c other : covariance) : result covariance := bind (cneg other) (cadd c).
End Cov.
Arguments covariance : clear implicits.
