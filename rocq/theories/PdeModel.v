(** Model of [src/linpde_gp/problems/pde/]: partial differential equations, boundary
    conditions, boundary value problems and the closed-form solutions attached to the
    Poisson and heat problems.
    Simplified: numbers are reals; functions are evaluated at one point; an end time
    of infinity is not modelled. *)
From Coq Require Import List Reals Bool Arith ZArith.
From Verif Require Import Base NdArray PolyModel PolyClassModel PiecewiseModel FunExprModel DiffopModel LfoModel DomainModel.
Import ListNotations.
Open Scope R_scope.

Definition arr := FunExprModel.array.
(** Values at scalar points and at points of the plane. *)
Definition pt0 (x : R) : arr := fun _ => x.
Definition pt2 (t x : R) : arr := fun k => match k with 0%nat :: _ => t | _ => x end.
(** Calling a function at a scalar point: probnum's [Function.__call__] refuses
    points of another shape. *)
Definition call_at (f : fn) (x : R) : result (shape * arr) :=
  if shape_eqb (in_shape f) [] then Ok (out_shape f, feval f (pt0 x)) else Err ValueError.

(** ** [_linear_pde.py] *)
Record pde := Pde { pde_domain : domain; pde_op : lfo; pde_rhs : fn }.
(** [LinearPDE.__init__] (_linear_pde.py:8-51) *)
Definition linear_pde (dom : domain_like) (L : lfo) (rhs : option fn) : result pde :=
  bind (asdomain dom) (fun d =>
  if negb (shape_eqb (fst (o_in L)) (dshape d)) then Err ValueError
  else if negb (shape_eqb (fst (o_in L)) (fst (o_out L))) then Err AssertionError
  else
    let rhs := match rhs with Some f => f | None => FZero (dshape d) (snd (o_out L)) end in
    if negb (shape_eqb (in_shape rhs) (dshape d)) then Err ValueError
    else if negb (shape_eqb (out_shape rhs) (snd (o_out L))) then Err ValueError
    else Ok (Pde d L rhs)).

(** ** [_bvp.py] *)
Record bcond := Bcond { bc_boundary : domain; bc_op : lfo; bc_values : fn }.
Inductive bvalue := VFn (f : fn) | VArr (sh : shape) (v : arr).
(** [BoundaryCondition.__init__] (_bvp.py:16-42) *)
Definition boundary_condition (b : domain_like) (L : lfo) (values : bvalue) : result bcond :=
  bind (asdomain b) (fun d =>
  if negb (shape_eqb (fst (o_in L)) (dshape d)) then Err ValueError
  else
    let f := match values with VFn f => f | VArr sh v => FConst (fst (o_out L)) sh v end in
    if negb (shape_eqb (in_shape f) (fst (o_out L))) then Err ValueError
    else if negb (shape_eqb (out_shape f) (snd (o_out L))) then Err ValueError
    else Ok (Bcond d L f)).
(** [DirichletBoundaryCondition.__init__] (_bvp.py:58-72) for a domain object. *)
Definition dirichlet (b : domain) (values : bvalue) : result bcond :=
  boundary_condition (DLDomain b)
    (OId (dshape b) (match values with VFn f => out_shape f | VArr sh _ => sh end)) values.
(** [float(point)] (domains/_point.py:36-40) *)
Definition point_float (p : DomainModel.array) : result R :=
  match a_shape p with
  | [] => Ok (nth 0 (a_data p) 0)
  | [1%nat] => Ok (nth 0 (a_data p) 0)
  | [_] => Err TypeError
  | _ => Err NotImplementedError
  end.
(** [get_1d_dirichlet_boundary_observations] (_bvp.py:75-86): the points and the
    values there; [np.asarray] of values of different shapes fails. *)
Definition dirichlet_observations (bcs : list bcond) : result ((R * R) * (shape * arr * arr)) :=
  match bcs with
  | [b0; b1] =>
      match bc_boundary b0, bc_boundary b1 with
      | Point p0, Point p1 =>
          bind (point_float p0) (fun x0 => bind (point_float p1) (fun x1 =>
          bind (call_at (bc_values b0) x0) (fun '(s0, y0) => bind (call_at (bc_values b1) x1) (fun '(s1, y1) =>
          if shape_eqb s0 s1 then Ok ((x0, x1), (s0, y0, y1)) else Err ValueError))))
      | _, _ => Err ValueError
      end
  | _ => Err ValueError
  end.
Record bvp := Bvp { bvp_pde : pde; bvp_bcs : list bcond; bvp_solution : option fn }.
(** [BoundaryValueProblem.__post_init__] (_bvp.py:99-117) *)
Definition mk_bvp (p : pde) (bcs : list bcond) (sol : option fn) : result bvp :=
  if negb (forallb (fun b => shape_eqb (dshape (bc_boundary b)) (dshape (pde_domain p))) bcs) then Err ValueError
  else match sol with
       | None => Ok (Bvp p bcs None)
       | Some s =>
           if negb (shape_eqb (in_shape s) (dshape (pde_domain p))) then Err ValueError
           else if negb (shape_eqb (out_shape s) (snd (o_in (pde_op p)))) then Err ValueError
           else Ok (Bvp p bcs (Some s))
       end.
(** [InitialBoundaryValueProblem.__init__] (_bvp.py:121-144); the initial condition is
    returned next to the problem. *)
Definition mk_ibvp (p : pde) (ic : bcond) (bcs : list bcond) (sol : option fn) : result (bvp * bcond) :=
  match factors (pde_domain p) with
  | [Interval _ _ _; sp] =>
      bind (dom_eq (bc_boundary ic) sp) (fun eq =>
      if negb eq then Err ValueError else bind (mk_bvp p bcs sol) (fun b => Ok (b, ic)))
  | _ => Err ValueError
  end.

(** ** [_poisson.py] *)
(** [PoissonEquation.__init__] (_poisson.py:15-29) *)
Definition poisson_equation (dom : domain_like) (rhs : option fn) (alpha : R) : result pde :=
  bind (asdomain dom) (fun d => linear_pde (DLDomain d) (o_scale (- alpha) (ODiff (DLap true (dshape d) (fun _ => 1)))) rhs).
(** [Solution_PoissonEquation_DirichletProblem_1D_RHSConstant] (_poisson.py:99-134);
    division of Python floats by zero raises, division of NumPy floats by zero
    (equal bounds) gives nan, which is not modelled. *)
Definition poisson_constant (dom : domain_like) (rhs u_l u_r alpha : R) : result fn :=
  bind (asdomain dom) (fun d =>
  match d with
  | Interval _ l r =>
      if Reqb alpha 0 then Err ZeroDivisionError
      else if Reqb l r then Err Unmodelled
      else
        let a1 := (u_r - u_l) / (r - l) in
        let a2 := 0.5 * rhs / - alpha in
        Ok (FOther [] [] (fun x _ => (a2 * (x [] - r) + a1) * (x [] - l) + u_l))
  | _ => Err TypeError
  end).
(** [Solution_PoissonEquation_IVP_1D_RHSPolynomial.__init__] (_poisson.py:138-172) *)
Definition poisson_ivp (dom : domain_like) (rhs : pypoly) (iv0 iv1 alpha : R) : result pypoly :=
  bind (asdomain dom) (fun d =>
  match d with
  | Interval _ l r =>
      let rhs_int := py_integrate rhs in
      let rhs_dblint := py_integrate rhs_int in
      if Reqb alpha 0 then Err ZeroDivisionError
      else
        let coeff_1 := iv1 - py_eval rhs_int l / - alpha in
        let coeff_0 := iv0 - l * coeff_1 - py_eval rhs_dblint l / - alpha in
        Ok (make_float (coeff_0 :: coeff_1 :: map (fun c => c / - alpha) (skipn 2 (float_coeffs rhs_dblint))))
  | _ => Err TypeError
  end).
(** The loop of [Solution_PoissonEquation_IVP_1D_RHSPiecewisePolynomial.__init__]
    (_poisson.py:202-215) *)
Definition scalar (x : R) : DomainModel.array := mkarray F64 [] [x].
Fixpoint ivp_pieces (ps : list pypoly) (xs : list R) (iv0 iv1 alpha : R) : result (list pypoly) :=
  match ps, xs with
  | p :: ps', piece_l :: ((piece_r :: _) as xs') =>
      bind (poisson_ivp (DLSeq [scalar piece_l; scalar piece_r]) p iv0 iv1 alpha) (fun sol_piece =>
      bind (ivp_pieces ps' xs' (py_eval sol_piece piece_r) (py_eval (py_diff sol_piece) piece_r) alpha) (fun rest =>
      Ok (sol_piece :: rest)))
  | _, _ => Ok []
  end.
Fixpoint poly_pieces (fs : list piece) : result (list pypoly) :=
  match fs with
  | [] => Ok []
  | PcPoly p :: fs' => bind (poly_pieces fs') (fun ps => Ok (p :: ps))
  | _ :: _ => Err TypeError
  end.
(** (_poisson.py:176-217) *)
Definition poisson_ivp_piecewise (dom : domain_like) (rhs : pw) (iv0 iv1 alpha : R) : result pw :=
  bind (asdomain dom) (fun d =>
  match d with
  | Interval _ _ _ =>
      bind (poly_pieces (pw_fns rhs)) (fun ps =>
      bind (ivp_pieces ps (pw_xs rhs) iv0 iv1 alpha) (fun sols =>
      piecewise_init KPiecewise (pw_xs rhs) (map PcPoly sols)))
  | _ => Err TypeError
  end).

(** Rows of an array of values. *)
Definition rows (sh : shape) (v : arr) : result (list bvalue) :=
  match sh with
  | [] => Err TypeError
  | n :: sh' => Ok (map (fun i => VArr sh' (fun k => v (i :: k))) (seq 0 n))
  end.
Definition constant_value (f : fn) : option R :=
  match f with FConst _ _ v => Some (v []) | FZero _ _ => Some 0 | _ => None end.
Inductive bvals := BVNone | BVFn (f : fn) | BVArr (sh : shape) (v : arr).
(** Boundary values of a one-dimensional problem as an array (_poisson.py:61-65) *)
Definition endpoint_values (l r : R) (f : fn) : result bvals :=
  bind (call_at f l) (fun '(o, yl) => bind (call_at f r) (fun '(_, yr) =>
  Ok (BVArr (2%nat :: o) (fun k => match k with 0%nat :: k' => yl k' | _ :: k' => yr k' | [] => 0 end)))).
(** The solution attached to a one-dimensional problem (_poisson.py:67-74); only
    scalar boundary values are modelled. *)
Definition attached_solution (d : domain) (rhs : fn) (bv : bvals) (alpha : R) : result (option fn) :=
  match constant_value rhs with
  | None => Ok None
  | Some c =>
      match bv with
      | BVArr [2%nat] v => bind (poisson_constant (DLDomain d) c (v [0%nat]) (v [1%nat]) alpha) (fun s => Ok (Some s))
      | BVArr [] _ => Err TypeError
      | BVArr (2%nat :: _) _ => Err Unmodelled
      | _ => Err ValueError
      end
  end.
(** (_poisson.py:76-89) *)
Definition poisson_conditions (d : domain) (bv : bvals) : result (list bcond) :=
  bind (boundary d) (fun parts =>
  match bv with
  | BVFn f => mapM (fun part => dirichlet part (VFn f)) parts
  | BVArr sh v => bind (rows sh v) (fun vs => mapM (fun '(part, w) => dirichlet part w) (combine parts vs))
  | BVNone => Err Unmodelled
  end).
(** [PoissonEquationDirichletProblem.__init__] (_poisson.py:37-95) *)
Definition poisson_problem (dom : domain_like) (rhs : option fn) (alpha : R) (bv : bvals) (sol : option fn) : result bvp :=
  bind (poisson_equation dom rhs alpha) (fun p =>
  let d := pde_domain p in
  let bv := match bv with BVNone => BVFn (FZero (dshape d) (snd (o_in (pde_op p)))) | _ => bv end in
  bind (if shape_eqb (dshape d) [] then
          match d with
          | Interval _ l r =>
              bind (match bv with BVFn f => endpoint_values l r f | _ => Ok bv end) (fun bv =>
              bind (match sol with None => attached_solution d (pde_rhs p) bv alpha | Some _ => Ok sol end) (fun sol =>
              Ok (bv, sol)))
          | _ => Err TypeError
          end
        else Ok (bv, sol)) (fun '(bv, sol) =>
  bind (poisson_conditions d bv) (fun bcs => mk_bvp p bcs sol))).

(** ** [functions/_fourier.py] and [_heat.py] *)
(** [half_angular_frequencies] (_fourier.py:41-45) of a series with [n] terms *)
Definition frequencies (l r : R) (n : nat) : list R := map (fun k => PI * INR k / (r - l)) (seq 1 n).
(** [TruncatedSineSeries._evaluate] (_fourier.py:47-54, jax 56-63) *)
Definition sine_eval (l r : R) (cs : list R) (x : R) : R :=
  rsum (map (fun '(c, w) => c * sin (w * (x - l))) (combine cs (frequencies l r (length cs)))).
Definition sine_series (l r : R) (cs : list R) : fn := FOther [] [] (fun x _ => sine_eval l r cs (x [])).
(** [Solution_HeatEquation_..._BoundaryZero._evaluate] (_heat.py:116-132): decay rates
    [alpha * frequency ** 2] *)
Definition heat_eval (t0 l r alpha : R) (cs : list R) (t x : R) : R :=
  rsum (map (fun '(c, w) => c * sin (w * (x - l)) * exp (alpha * w ^ 2 * (t0 - t)))
            (combine cs (frequencies l r (length cs)))).
Definition heat_solution (t0 l r alpha : R) (cs : list R) : fn :=
  FOther [2%nat] [] (fun tx _ => heat_eval t0 l r alpha cs (tx [0%nat]) (tx [1%nat])).
(** [HeatOperator.__init__] (linfuncops/diffops/_heat.py:15-33) as an operator object *)
Definition heat_op (sh : shape) (alpha : R) : result lfo :=
  match sh with
  | [n] => bind (mk_mi [S (n - 1)] (1%Z :: repeat 0%Z (n - 1))) (fun a =>
           mk_sum [ODiff (DPartial a); ODiff (DLap false sh (fun i => if shape_eqb i [0%nat] then 0 else - alpha))])
  | _ => Err ValueError
  end.
(** [HeatEquation.__init__] (_heat.py:17-29) *)
Definition heat_equation (d : domain) (rhs : option fn) (alpha : R) : result pde :=
  bind (heat_op (dshape d) alpha) (fun L => linear_pde (DLDomain d) L rhs).
(** Initial values: absent, a sine series on an interval, or another function. *)
Inductive heat_init := HNone | HSine (l r : R) (cs : list R) | HFn (f : fn).
Definition init_fn (spatial : domain) (iv : heat_init) : fn :=
  match iv with HNone => FZero (dshape spatial) [] | HSine l r cs => sine_series l r cs | HFn f => f end.
(** The attached solution (_heat.py:73-86) *)
Definition heat_attached (d spatial : domain) (t0 alpha : R) (iv : heat_init) : option fn :=
  match init_fn spatial iv, iv, spatial with
  | FZero _ _, _, _ => Some (FZero (dshape d) [])
  | _, HSine l r cs, Interval _ l' r' => if Reqb l l' && Reqb r r' then Some (heat_solution t0 l r alpha cs) else None
  | _, _, _ => None
  end.
(** [HeatEquationDirichletProblem.__init__] (_heat.py:33-93) *)
Definition heat_problem (t0 T : R) (spatial : domain) (rhs : option fn) (alpha : R) (iv : heat_init) (sol : option fn)
  : result (bvp * bcond) :=
  bind (mk_interval F64 t0 T) (fun time =>
  bind (mk_prod [time; spatial]) (fun d =>
  bind (heat_equation d rhs alpha) (fun p =>
  let f := init_fn spatial iv in
  if negb (shape_eqb (in_shape f) (dshape spatial)) && negb (shape_eqb (out_shape f) []) then Err ValueError
  else
    bind (dirichlet spatial (VFn f)) (fun ic =>
    bind (boundary spatial) (fun parts =>
    bind (mapM (fun part => bind (mk_prod [time; part]) (fun b => dirichlet b (VArr [] (fun _ => 0)))) parts) (fun bcs =>
    mk_ibvp p ic bcs (match sol with Some _ => sol | None => heat_attached d spatial t0 alpha iv end))))))).
