(** Model of [randprocs/covfuncs/_galerkin.py] and of the projection applied to it again
    ([randprocs/covfuncs/linfunctls/_registry.py] 241-258,
    [randprocs/crosscov/linfunctls/projections.py] 119-128).

    Points, batches and arrays as in [CrossModel], features as in [ParamModel].  The
    covariance function is scalar (every projection of the package demands that).  The
    identity of the Python objects compared with [is] is a number. *)
From Coq Require Import List Arith Bool.
From Verif Require Import Base NdArray NdData BlockModel CovModel CrossModel ParamModel.
Import ListNotations.

Section Galerkin.
Context {F : fops}.

(** A projection: its identity, its domain, basis, whether it is normalised
    ([linfunctls/projections/l2/_fem.py] 14-35), and the coefficients of the projection of
    a function given by its values. *)
Record projection := mkproj {
  pj_id : nat; pj_in : shape; pj_n : nat; pj_basis : feature F; pj_basis_id : nat; pj_normalized : bool;
  pj_fun : (point F -> F) -> nat -> F }.

(** [validate_covfunc_transformation] ([covfuncs/_utils.py] 6-38) for a scalar covariance
    function with inputs of shape [insh]. *)
Definition pj_validate (P : projection) (insh : shape) (argnum : nat) : result unit :=
  if 1 <? argnum then Err ValueError else if shape_eqb insh (pj_in P) then Ok tt else Err ValueError.
(** [P(k, argnum=1)]: the projection of [k(x, .)] for every [x]; and [P] of that.  What the
    individual handlers compute is the subject of C40; here only the meaning enters. *)
Definition pj_kPa (P : projection) (insh : shape) (v : point F -> point F -> F) : result (pvcc F) :=
  bind (pj_validate P insh 1) (fun _ =>
  Ok (PLeaf insh [] [pj_n P] false (fun x _ r => pj_fun P (v x) (nth 0 r 0)))).
Definition pj_PkPa (P : projection) (v : point F -> point F -> F) : result (covariance F) :=
  array_cov (Nd [pj_n P; pj_n P] (fun l => pj_fun P (fun x => pj_fun P (v x) (nth 1 l 0)) (nth 0 l 0))) [pj_n P] [pj_n P].

(** [.T] *)
Definition np_T (a : nd F) : nd F := Nd (rev (nshape a)) (fun l => nat_ a (rev l)).
(** [_EmbeddedProcessVectorCrossCovariance._evaluate] ([covfuncs/_galerkin.py] 66-81) *)
Definition em_eval (pv : pvcc F) (basis : feature F) (x0 : nd F) (x1 : option (nd F)) : result (nd F) :=
  let x1 := second x0 x1 in
  if p_rev pv then
    bind (bind (ft_call basis x0) as_array) (fun basis_x0 =>
    bind (p_call pv x1) (fun pv_x1 => inner_last basis_x0 (np_T pv_x1)))
  else
    bind (p_call pv x0) (fun pv_x0 =>
    bind (bind (ft_call basis x1) as_array) (fun basis_x1 => inner_last pv_x0 basis_x1)).
(** probnum's [__call__] around it (58-64) *)
Definition em_call (pv : pvcc F) (basis : feature F) : nd F -> option (nd F) -> result (nd F) := scalar_call (p_in pv) (em_eval pv basis).

(** [GalerkinCovarianceFunction]: covariance function, projection, [_kPa], [_PkPa],
    [_PaPkPaP]. *)
Record galerkin := mkgal {
  g_in : shape; g_k : point F -> point F -> F; g_P : projection; g_kPa : pvcc F; g_PkP : covariance F; g_param : pcov F }.
(** [__init__] (11-34) *)
Definition gal_init (insh : shape) (v : point F -> point F -> F) (P : projection) : result galerkin :=
  bind (pj_kPa P insh v) (fun kPa =>
  bind (pj_PkPa P v) (fun PkPa =>
  bind (mk_pcov (pj_basis P) PkPa) (fun param => Ok (mkgal insh v P kPa PkPa param)))).
(** [a - b] of arrays of equal shape; other shapes are not needed here. *)
Definition nd_sub (a b : nd F) : result (nd F) :=
  if shape_eqb (nshape a) (nshape b) then Ok (nd_map2 fsub a b) else Err Unmodelled.
(** [_evaluate] (44-53) *)
Definition gal_eval (g : galerkin) (x0 : nd F) (x1 : option (nd F)) : result (nd F) :=
  bind (pcov_call (g_param g) x0 x1) (fun param =>
  bind (k_call (KLeaf (g_in g) [] [] (fun p q _ _ => g_k g p q)) x0 x1) (fun k =>
  bind (em_call (g_kPa g) (pj_basis (g_P g)) x0 x1) (fun kPaP =>
  bind (em_call (g_kPa g) (pj_basis (g_P g))
          (match x1 with None => x0 | Some x => x end) (match x1 with None => None | Some _ => Some x0 end)) (fun PkPa =>
  bind (nd_add param k) (fun a => bind (nd_sub a kPaP) (fun a => bind (nd_sub a PkPa) (fun a => nd_add a param))))))).
Definition gal_call (g : galerkin) : nd F -> option (nd F) -> result (nd F) := scalar_call (g_in g) (gal_eval g).

(** The projection applied to a Galerkin covariance function ([_registry.py] 241-258): the
    parametric cross-covariance with the identity of its basis. *)
Definition pj_galerkin (P : projection) (g : galerkin) (argnum : nat) : result (nat * pvcc F) :=
  bind (pj_validate P (g_in g) argnum) (fun _ =>
  if pj_id P =? pj_id (g_P g) then
    Ok (pj_basis_id (g_P g),
        PParam (g_PkP g) (ft_in (pj_basis (g_P g))) (pj_n (g_P g)) (fun x k => ft_val (pj_basis (g_P g)) x [k]) (argnum =? 0))
  else Err NotImplementedError).
(** The projection applied to a parametric cross-covariance ([projections.py] 119-128) *)
Definition pj_param (P : projection) (pv : nat * pvcc F) : result (covariance F) :=
  match snd pv with
  | PParam c _ _ _ _ => if (pj_basis_id P =? fst pv) && pj_normalized P then Ok c else Err NotImplementedError
  | _ => Err Unmodelled
  end.
End Galerkin.
Arguments projection : clear implicits.
Arguments galerkin : clear implicits.
