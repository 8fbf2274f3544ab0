(** Model of processes with finitely many features:
    [randprocs/covfuncs/_parametric.py] and [randprocs/_gaussian_process/_parametric.py].

    Arrays are [NdData.nd], linear operators the matrices they represent; dtypes and
    caching are not modelled.  Points, batches and probnum's [__call__] of a covariance
    function (shape checks around [_evaluate]) are those of [CrossModel]. *)
From Coq Require Import List Arith Bool.
From Verif Require Import Base NdArray NdData BlockModel CovModel CrossModel.
Import ListNotations.

Section Param.
Context {F : fops}.

(** ** NumPy primitives *)
(** [(a\[..., None, :\] @ b\[..., :, None\])\[..., 0, 0\]]: inner products along the last axis
    with broadcast batches; ValueError if the lengths or the batches do not fit,
    IndexError if an operand has no axis. *)
Definition inner_last (a b : nd F) : result (nd F) :=
  match rev (nshape a), rev (nshape b) with
  | n :: ra, m :: rb =>
      if n =? m then
        bind (broadcast_shapes (rev ra) (rev rb)) (fun s =>
        Ok (Nd s (fun i => fsum (map (fun k =>
              fmul (nat_ a (operand_index (rev ra) i ++ [k])) (nat_ b (operand_index (rev rb) i ++ [k]))) (seq 0 n)))))
      else Err ValueError
  | _, _ => Err IndexError
  end.
(** [a\[..., None\]] and [a\[None, None\]] *)
Definition newaxis_last (a : nd F) : nd F := Nd (nshape a ++ [1]) (fun l => nat_ a (removelast l)).
Definition newaxis_front2 (a : nd F) : nd F := Nd (1 :: 1 :: nshape a) (fun l => nat_ a (skipn 2 l)).
(** [linop(a, axis=-1)]; AxisError (a ValueError) if there is no axis. *)
Definition lin_last (A : mat F) (a : nd F) : result (nd F) :=
  match nshape a with [] => Err ValueError | _ => lin_axis A a (length (nshape a) - 1) end.
(** A 2-D array as an operator ([aslinop], [@]); other arrays raise (the type of that
    exception, raised inside probnum, is not modelled). *)
Definition as_matrix (a : nd F) : result (mat F) :=
  match nshape a with [_; _] => Ok (mat_of_nd a) | _ => Err ValueError end.

(** ** Feature functions *)
(** A [pn.functions.Function] by its values.  [ft_op x] tells whether the call at [x]
    returns a linear operator; that is possible only for one batch axis and one
    feature axis. *)
Record feature := mkfeat { ft_in : shape; ft_out : shape; ft_val : point F -> index -> F; ft_op : nd F -> bool }.
(** What a call returns: an array or a linear operator. *)
Inductive fval := VArr (a : nd F) | VOp (m : mat F).
Definition ft_array (f : feature) (b : shape) (x : nd F) : nd F :=
  Nd (b ++ ft_out f) (fun l => ft_val f (pt x (firstn (length b) l)) (skipn (length b) l)).
Definition ft_call (f : feature) (x : nd F) : result fval :=
  bind (batch_shape (ft_in f) x) (fun b =>
  Ok (match b, ft_out f with
      | [N], [n] => if ft_op f x then VOp (mkmat N n (fun i k => ft_val f (pt x [i]) [k])) else VArr (ft_array f b x)
      | _, _ => VArr (ft_array f b x)
      end)).
(** The value as an array; indexing or transforming an operator-valued basis is not
    modelled. *)
Definition as_array (v : fval) : result (nd F) := match v with VArr a => Ok a | VOp _ => Err Unmodelled end.

(** probnum's [CovarianceFunction.__call__] of a scalar covariance function. *)
Definition scalar_call (insh : shape) (ev : nd F -> option (nd F) -> result (nd F)) (x0 : nd F) (x1 : option (nd F)) : result (nd F) :=
  bind (check_shapes insh x0 x1) (fun b => bind (ev x0 x1) (fun a => if shape_eqb (nshape a) b then Ok a else Err AssertionError)).

(** ** [ParametricCovarianceFunction] ([covfuncs/_parametric.py]) *)
Record pcov := mkpcov { pc_basis : feature; pc_cov : covariance F }.
(** [__init__] (8-19) *)
Definition mk_pcov (basis : feature) (c : covariance F) : result pcov :=
  if shape_eqb (cshape1 c) (ft_out basis) then Ok (mkpcov basis c) else Err ValueError.
(** [_evaluate] (21-27) *)
Definition pcov_eval (p : pcov) (x0 : nd F) (x1 : option (nd F)) : result (nd F) :=
  bind (bind (ft_call (pc_basis p) x0) as_array) (fun phi0 =>
  bind (match x1 with None => Ok phi0 | Some x => bind (ft_call (pc_basis p) x) as_array end) (fun phi1 =>
  bind (clinop (pc_cov p)) (fun C =>
  bind (lin_last C phi1) (fun cphi1 => inner_last phi0 cphi1)))).
Definition pcov_call (p : pcov) : nd F -> option (nd F) -> result (nd F) := scalar_call (ft_in (pc_basis p)) (pcov_eval p).

(** ** [ParametricGaussianProcess] ([_gaussian_process/_parametric.py]) *)
(** The normal distribution of the weights: mean and covariance as arrays (a covariance
    given as linear operator is the matrix it represents). *)
Record weights := mkweights { w_mean : nd F; w_cov : nd F }.
(** [Mean._evaluate] (41-45): for scalar features [phi(x) * weights.mean], modelled for a
    scalar mean, else [phi(x) @ weights.mean], modelled for a vector. *)
Definition pgp_mean_eval (w : weights) (f : feature) (x : nd F) : result (nd F) :=
  bind (ft_call f x) (fun phi =>
  match ft_out f with
  | [] => match phi, nshape (w_mean w) with
          | VArr a, [] => Ok (nd_map (fun v => fmul v (nat_ (w_mean w) [])) a)
          | _, _ => Err Unmodelled
          end
  | _ =>
      match nshape (w_mean w) with
      | [_] => match phi with
               | VArr a => inner_last a (w_mean w)
               | VOp m => bind (mat_mul m (mkmat (nth 0 (nshape (w_mean w)) 0) 1 (fun i _ => nat_ (w_mean w) [i]))) (fun r =>
                   Ok (Nd [nrows r] (fun l => entry r (nth 0 l 0) 0)))
               end
      | _ => Err Unmodelled
      end
  end).
(** probnum's [Function.__call__] around it *)
Definition pgp_mean (w : weights) (f : feature) (x : nd F) : result (nd F) :=
  bind (batch_shape (ft_in f) x) (fun b => bind (pgp_mean_eval w f x) (fun a => if shape_eqb (nshape a) b then Ok a else Err AssertionError)).

(** [todense] if the value is an operator *)
Definition dense (v : fval) : nd F := match v with VArr a => a | VOp m => nd_of_mat m end.
(** [CovarianceFunction._evaluate] (60-95) *)
Definition pgp_cov_eval (w : weights) (f : feature) (x0 : nd F) (x1 : option (nd F)) : result (nd F) :=
  let second_of phi0 ev := match x1 with None => Ok phi0 | Some x => ev x end in
  bind (match ft_out f with
        | [] => (* 61-64 *)
            let ev x := bind (bind (ft_call f x) as_array) (fun a => Ok (VArr (newaxis_last a))) in
            bind (ev x0) (fun phi0 => bind (second_of phi0 ev) (fun phi1 => Ok (phi0, phi1, newaxis_front2 (w_cov w))))
        | _ => (* 65-68 *)
            bind (ft_call f x0) (fun phi0 => bind (second_of phi0 (ft_call f)) (fun phi1 => Ok (phi0, phi1, w_cov w)))
        end) (fun '(phi0, phi1, Sigma) =>
  bind (as_matrix Sigma) (fun S =>
  match phi0 with
  | VOp p0 => (* 70-80 *)
      bind (mat_mul p0 S) (fun p0S => inner_last (nd_of_mat p0S) (dense phi1))
  | VArr a0 =>
      bind (match phi1 with
            | VOp p1 => (* 82-87 *) bind (mat_mul p1 S) (fun p1S => Ok (nd_of_mat p1S))
            | VArr a1 => (* 88-90 *) lin_last S a1
            end) (fun p1S => (* 92-95 *) inner_last a0 p1S)
  end)).
Definition pgp_cov (w : weights) (f : feature) : nd F -> option (nd F) -> result (nd F) := scalar_call (ft_in f) (pgp_cov_eval w f).
End Param.
Arguments feature : clear implicits.
Arguments fval : clear implicits.
Arguments weights : clear implicits.
Arguments pcov : clear implicits.
