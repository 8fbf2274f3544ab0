(** Model of the array evaluation of the ExpQuad and Matérn covariance functions and of
    their derivatives: [_evaluate], [_evaluate_jax] and [_keops_lazy_tensor] of
    [randprocs/covfuncs/{_expquad,_matern,_jax,_jax_arithmetic}.py] and
    [randprocs/covfuncs/linfuncops/diffops/{_expquad,_matern}.py] on arrays of points of
    any shape, with their dtype.  [KernelModel] has one pair of points; the objects
    are those of [KernelModel.cov].

    Simplified: integers are unbounded, floats are reals; NumPy's [UFuncTypeError] is a
    [TypeError]; the in-place update of the scale factors is modelled in [EffectModel]
    (here: the first evaluation of an object);
    probnum's NumPy distances are modelled for floats only; JAX raises TypeError where
    NumPy raises ValueError for shapes that do not fit, both are ValueError here. *)
From Coq Require Import List Reals Bool Arith ZArith.
From Verif Require Import Base NdArray NdData PolyModel PolyClassModel BlockModel CovModel CrossModel ShapedModel DtypeModel
  FunExprModel DiffopModel LfoModel KernelModel.
Import ListNotations.
Open Scope R_scope.
Local Notation "x <- e ;; k" := (bind e (fun x => k)) (at level 61, e at next level, right associativity).

(** ** Arrays with a dtype *)
(** [t_int]: the entries are integers. *)
Record tnd := T { t_int : bool; t_arr : nd RF }.
Inductive mode := NumPy | Jax.
Definition t_shape (a : tnd) : shape := nshape (t_arr a).
(** A Python or NumPy float. *)
Definition num (r : R) : tnd := T false (Nd [] (fun _ => r)).
(** [a - b], [a * b], [a + b]: integers only if both are. *)
Definition tbin (op : R -> R -> R) (a b : tnd) : result tnd :=
  c <- nd_bin (F := RF) op (t_arr a) (t_arr b) ;; Ok (T (t_int a && t_int b) c).
(** [a / b] *)
Definition tdiv (a b : tnd) : result tnd := c <- nd_bin (F := RF) Rdiv (t_arr a) (t_arr b) ;; Ok (T false c).
(** [a *= b] and [a -= b]: NumPy keeps shape and dtype of an array [a]; JAX rebinds the
    name, and so does NumPy if [a] has no axes (arithmetic then returns numbers, not
    arrays). *)
Definition inplace (m : mode) (op : R -> R -> R) (a b : tnd) : result tnd :=
  match m, t_shape a with
  | Jax, _ | NumPy, [] => tbin op a b
  | NumPy, _ =>
      if t_int a && negb (t_int b) then Err TypeError else
      c <- nd_bin (F := RF) op (t_arr a) (t_arr b) ;;
      if shape_eqb (nshape c) (t_shape a) then Ok (T (t_int a) c) else Err ValueError
  end.
(** [-a], [a**n]; [exp(a)], [sqrt(a)] *)
Definition tneg (a : tnd) : tnd := T (t_int a) (nd_map Ropp (t_arr a)).
Definition tpow (a : tnd) (n : nat) : tnd := T (t_int a) (nd_map (fun r => r ^ n) (t_arr a)).
Definition tfun (f : R -> R) (a : tnd) : tnd := T false (nd_map f (t_arr a)).
(** [full_like(x0, r, shape=x0.shape\[: x0.ndim - input_ndim\])], in NumPy and JAX: the dtype of
    [x0], so [r] is converted. *)
Definition like (ndim : nat) (x0 : tnd) (r : R) : tnd :=
  T (t_int x0) (Nd (firstn (length (t_shape x0) - ndim) (t_shape x0)) (fun _ => if t_int x0 then IZR (trunc r) else r)).
(** [_batched_sum] (_jax.py:12-16, 64-67): the sum over the last [ndim] axes; numpy's AxisError
    is a ValueError. *)
Definition tsum_last (ndim : nat) (a : tnd) : result tnd :=
  let d := (length (t_shape a) - ndim)%nat in
  if (length (t_shape a) <? ndim)%nat then Err ValueError else
  Ok (T (t_int a) (Nd (firstn d (t_shape a)) (fun i => rsum (map (fun j => nat_ (t_arr a) (i ++ j)) (all_indices (skipn d (t_shape a))))))).
(** [np.sum(a)] *)
Definition tsum (a : tnd) : tnd := T (t_int a) (Nd [] (fun _ => rsum (map (nat_ (t_arr a)) (all_indices (t_shape a))))).
(** [np.squeeze(a)\[()\]] of an array with one entry; others are not modelled. *)
Definition tsqueeze (a : tnd) : result tnd :=
  match all_indices (t_shape a) with [i] => Ok (T (t_int a) (Nd [] (fun _ => nat_ (t_arr a) i))) | _ => Err Unmodelled end.
(** [poly(a)], [poly.jax(a)]: [DtypeModel] on the entries in C order. *)
Definition to_darr (a : tnd) : darr :=
  if t_int a then AI (map (fun i => Int_part (nat_ (t_arr a) i)) (all_indices (t_shape a)))
  else AF (map (nat_ (t_arr a)) (all_indices (t_shape a))).
Definition of_darr (s : shape) (d : darr) : tnd :=
  T (match d with AI _ => true | AF _ => false end) (Nd s (fun i => nth (ravel s i) (floats d) 0)).
Definition poly_call (m : mode) (p : pypoly) (a : tnd) : result tnd :=
  d <- (match m with NumPy => np_poly p (to_darr a) | Jax => jax_poly p (to_darr a) end) ;; Ok (of_darr (t_shape a) d).

(** ** Covariance functions *)
(** The lengthscales: a number ([sc]) or an array of the input shape. *)
Definition tlen (sc : bool) (sh : shape) (len : array) : tnd := T false (Nd (if sc then [] else sh) len).
Definition tarr (sh : shape) (a : array) : tnd := T false (Nd sh a).
(** [_scale_factors] of probnum's ExpQuad and Matern *)
Definition eq_scale_t (sc : bool) (e : expquad) : tnd := tfun (fun l => 1 / (sqrt 2 * l)) (tlen sc (eq_shape e) (eq_len e)).
Definition mt_scale_t (sc : bool) (m : matern) : tnd := tfun (fun l => sqrt (2 * nu_val (mt_nu m)) / l) (tlen sc (mt_shape m) (mt_len m)).
(** probnum's [__call__] and [JaxCovarianceFunctionMixin.jax] (_jax.py:36-59) around [_evaluate];
    all covariance functions here have scalar outputs. *)
Definition checked (insh : shape) (ev : tnd -> option tnd -> result tnd) (x0 : tnd) (x1 : option tnd) : result tnd :=
  b <- check_shapes (F := RF) insh (t_arr x0) (option_map t_arr x1) ;;
  a <- ev x0 x1 ;; if shape_eqb (t_shape a) b then Ok a else Err AssertionError.

(** [_squared_euclidean_distances_jax] (_jax.py:104-126) and probnum's NumPy counterpart *)
Definition sq_dists (m : mode) (ndim : nat) (scale : tnd) (x0 : tnd) (x1 : option tnd) : result tnd :=
  match x1 with
  | None => match m with NumPy => if t_int x0 then Err Unmodelled else Ok (like ndim x0 0) | Jax => Ok (like ndim x0 0) end
  | Some y =>
      d <- tbin Rminus x0 y ;;
      if (match m with NumPy => t_int d | Jax => false end) then Err Unmodelled else
      d <- tbin Rmult d scale ;; tsum_last ndim (tpow d 2)
  end.
(** [_euclidean_distances_jax] (_jax.py:128-147) and its NumPy counterpart *)
Definition dists (m : mode) (ndim : nat) (scale : tnd) (x0 : tnd) (x1 : option tnd) : result tnd :=
  match x1 with
  | None => sq_dists m ndim scale x0 None
  | Some _ => d <- sq_dists m ndim scale x0 x1 ;; Ok (tfun sqrt d)
  end.
(** [ExpQuad._evaluate_jax] (_expquad.py:14-26), and probnum's [_evaluate] *)
Definition expquad_b (m : mode) (sc : bool) (e : expquad) (x0 : tnd) (x1 : option tnd) : result tnd :=
  let ndim := length (eq_shape e) in
  match x1 with
  | None => Ok (like ndim x0 1)
  | Some _ => d <- sq_dists m ndim (eq_scale_t sc e) x0 x1 ;; Ok (tfun exp (tneg d))
  end.

(** *** [diffops/_expquad.py] *)
(** 39-57, 59-73 *)
Definition expdir_b (sc : bool) (e : expquad) (dir : array) (reverse : bool) (x0 : tnd) (x1 : option tnd) : result tnd :=
  let ndim := length (eq_shape e) in let len := tlen sc (eq_shape e) (eq_len e) in
  match x1 with
  | None => Ok (like ndim x0 0)
  | Some y =>
      diffs <- tbin Rminus x0 y ;;
      rescaled <- tdiv (tarr (eq_shape e) dir) (tpow len 2) ;;
      p <- tbin Rmult (if reverse then tneg rescaled else rescaled) diffs ;;
      proj_diffs <- tsum_last ndim p ;;
      q <- tdiv diffs len ;;
      dists_sq <- tsum_last ndim (tpow q 2) ;;
      h <- tbin Rmult (num (- (1/2))) dists_sq ;;
      tbin Rmult proj_diffs (tfun exp h)
  end.
(** 94-122, 124-142 *)
Definition expdirdir_inprod_b (sc : bool) (e : expquad) (dir0 dir1 : array) : result tnd :=
  let len := tlen sc (eq_shape e) (eq_len e) in
  r1 <- tdiv (tarr (eq_shape e) dir1) (tpow len 2) ;;
  p <- tbin Rmult (tarr (eq_shape e) dir0) r1 ;; tsum_last (length (eq_shape e)) p.
Definition expdirdir_b (sc : bool) (e : expquad) (dir0 dir1 : array) (x0 : tnd) (x1 : option tnd) : result tnd :=
  let ndim := length (eq_shape e) in let len := tlen sc (eq_shape e) (eq_len e) in
  inprod <- expdirdir_inprod_b sc e dir0 dir1 ;;
  match x1 with
  | None => Ok (like ndim x0 (nat_ (t_arr inprod) []))
  | Some y =>
      diffs <- tbin Rminus x0 y ;;
      r0 <- tdiv (tarr (eq_shape e) dir0) (tpow len 2) ;;
      p0 <- tbin Rmult r0 diffs ;; proj0 <- tsum_last ndim p0 ;;
      r1 <- tdiv (tarr (eq_shape e) dir1) (tpow len 2) ;;
      p1 <- tbin Rmult r1 diffs ;; proj1 <- tsum_last ndim p1 ;;
      q <- tdiv diffs len ;; dists_sq <- tsum_last ndim (tpow q 2) ;;
      pp <- tbin Rmult proj0 proj1 ;;
      d <- tbin Rminus inprod pp ;;
      h <- tbin Rmult (num (- (1/2))) dists_sq ;;
      tbin Rmult d (tfun exp h)
  end.
(** [_weighted_inv_lengthscales_sq] (173-175), [_scale_factors_sq] (177-181), [_trace_term]
    (183-185) *)
Definition explap_winv_b (sc : bool) (e : expquad) (w : array) : result tnd :=
  a <- tbin Rmult (num 2) (tarr (eq_shape e) w) ;; tbin Rmult a (tpow (eq_scale_t sc e) 2).
Definition explap_sfsq_b (sc : bool) (e : expquad) (w : array) : result tnd :=
  wi <- explap_winv_b sc e w ;; a <- tbin Rmult (num 2) wi ;; tbin Rmult a (tpow (eq_scale_t sc e) 2).
Definition explap_trace_b (sc : bool) (e : expquad) (w : array) : result tnd :=
  a <- tbin Rmult (num 2) (tarr (eq_shape e) w) ;; b <- tbin Rmult a (tpow (eq_scale_t sc e) 2) ;; Ok (tsum b).
(** 187-201, 203-218 *)
Definition explap_b (sc : bool) (e : expquad) (w : array) (x0 : tnd) (x1 : option tnd) : result tnd :=
  let ndim := length (eq_shape e) in
  trace <- explap_trace_b sc e w ;;
  match x1 with
  | None => Ok (like ndim x0 (- nat_ (t_arr trace) []))
  | Some y =>
      diffs <- tbin Rminus x0 y ;;
      sf <- explap_sfsq_b sc e w ;;
      a <- tbin Rmult sf diffs ;; a <- tbin Rmult a diffs ;; s <- tsum_last ndim a ;;
      s <- tbin Rminus s trace ;;
      g <- tbin Rmult (eq_scale_t sc e) diffs ;; n <- tsum_last ndim (tpow g 2) ;;
      tbin Rmult s (tfun exp (tneg n))
  end.
(** 266-272, 274-279, 281-312, 314-345 *)
Definition explaplap_trace_b (sc : bool) (e : expquad) (w0 w1 : array) : result tnd :=
  a <- explap_winv_b sc e w0 ;; b <- explap_winv_b sc e w1 ;; p <- tbin Rmult a b ;; Ok (tsum p).
Definition explaplap_b (sc : bool) (e : expquad) (w0 w1 : array) (x0 : tnd) (x1 : option tnd) : result tnd :=
  let ndim := length (eq_shape e) in
  t0 <- explap_trace_b sc e w0 ;; t1 <- explap_trace_b sc e w1 ;;
  trace <- explaplap_trace_b sc e w0 w1 ;;
  match x1 with
  | None => Ok (like ndim x0 (nat_ (t_arr t0) [] * nat_ (t_arr t1) [] + 2 * nat_ (t_arr trace) []))
  | Some y =>
      diffs <- tbin Rminus x0 y ;;
      sf0 <- explap_sfsq_b sc e w0 ;; a0 <- tbin Rmult sf0 (tpow diffs 2) ;; s0 <- tsum_last ndim a0 ;; s0 <- tbin Rminus s0 t0 ;;
      sf1 <- explap_sfsq_b sc e w1 ;; a1 <- tbin Rmult sf1 (tpow diffs 2) ;; s1 <- tsum_last ndim a1 ;; s1 <- tbin Rminus s1 t1 ;;
      p <- tbin Rmult s0 s1 ;;
      wi1 <- explap_winv_b sc e w1 ;; sf <- tbin Rmult sf0 wi1 ;; a <- tbin Rmult sf (tpow diffs 2) ;; s <- tsum_last ndim a ;;
      s4 <- tbin Rmult (num 4) s ;; p <- tbin Rminus p s4 ;;
      tr2 <- tbin Rmult (num 2) trace ;; p <- tbin Rplus p tr2 ;;
      g <- tbin Rmult (eq_scale_t sc e) diffs ;; n <- tsum_last ndim (tpow g 2) ;;
      tbin Rmult p (tfun exp (tneg n))
  end.
(** 379-410, 412-432 *)
Definition expdirlap_b (m : mode) (sc : bool) (e : expquad) (dir w : array) (reverse : bool) (x0 : tnd) (x1 : option tnd) : result tnd :=
  let ndim := length (eq_shape e) in
  match x1 with
  | None => Ok (like ndim x0 0)
  | Some y =>
      diffs <- tbin Rminus x0 y ;;
      r <- tbin Rmult (tarr (eq_shape e) dir) (num 2) ;; r <- tbin Rmult r (tpow (eq_scale_t sc e) 2) ;;
      p <- tbin Rmult r diffs ;; proj <- tsum_last ndim p ;;
      wi <- explap_winv_b sc e w ;; rw <- tbin Rmult r wi ;;
      pw <- tbin Rmult rw diffs ;; projw <- tsum_last ndim pw ;;
      k0 <- checked (eq_shape e) (expquad_b m sc e) x0 x1 ;;
      a <- tbin Rmult (num 2) projw ;; k <- tbin Rmult a k0 ;;
      k1 <- checked (eq_shape e) (explap_b sc e w) x0 x1 ;;
      b <- tbin Rmult proj k1 ;; k <- inplace m Rminus k b ;;
      Ok (if reverse then tneg k else k)
  end.

(** *** [_matern.py] *)
(** Horner's scheme (_matern.py:27-36) on the coefficients below the leading one, highest first:
    [res] starts as a number, so every [*=] and [+=] of the first round rebinds the name;
    later rounds have the shape of the distances. *)
Fixpoint horner_b (res : tnd) (cs : list R) (r : tnd) : result tnd :=
  match cs with
  | [] => Ok res
  | c :: cs' => a <- tbin Rmult res r ;; a <- tbin Rplus a (num c) ;; horner_b a cs' r
  end.
(** [Matern._evaluate_jax] (_matern.py:15-46) and probnum's [_evaluate] *)
Definition matern_b (m : mode) (sc : bool) (k : matern) (x0 : tnd) (x1 : option tnd) : result tnd :=
  r <- dists m (length (mt_shape k)) (mt_scale_t sc k) x0 x1 ;;
  match mt_nu k with
  | HalfInt p =>
      match rev (map Qc2R (half_integer_coefficients p)) with
      | [] => Err IndexError
      | c :: cs => a <- horner_b (num c) cs r ;; tbin Rmult a (tfun exp (tneg r))
      end
  | OtherNu _ f => match m with NumPy => Ok (tfun f r) | Jax => Err NotImplementedError end
  end.

(** *** [diffops/_matern.py] *)
(** 54-86, 88-110 *)
Definition matdir_b (m : mode) (sc : bool) (k : matern) (dir : array) (reverse : bool) (poly : pypoly) (x0 : tnd) (x1 : option tnd) : result tnd :=
  let ndim := length (mt_shape k) in
  match x1 with
  | None => Ok (like ndim x0 0)
  | Some y =>
      d <- tbin Rminus x0 y ;; d <- inplace m Rmult d (mt_scale_t sc k) ;;
      s <- tbin Rmult (mt_scale_t sc k) (tarr (mt_shape k) dir) ;;
      s <- (if reverse then Ok s else tbin Rmult s (num (-1))) ;;
      p <- tbin Rmult s d ;; proj <- tsum_last ndim p ;;
      n <- tsum_last ndim (tpow d 2) ;; let r := tfun sqrt n in
      res <- poly_call m poly r ;; res <- inplace m Rmult res (tfun exp (tneg r)) ;; inplace m Rmult res proj
  end.
(** 173-203, 205-230 *)
Definition matdirdir_b (m : mode) (sc : bool) (k : matern) (dir0 dir1 : array) (npd pd : pypoly) (x0 : tnd) (x1 : option tnd) : result tnd :=
  let ndim := length (mt_shape k) in
  s0 <- tbin Rmult (mt_scale_t sc k) (tarr (mt_shape k) dir0) ;;
  s1 <- tbin Rmult (mt_scale_t sc k) (tarr (mt_shape k) dir1) ;;
  s01 <- tbin Rmult s0 s1 ;; let inprod := tsum s01 in
  match x1 with
  | None => match float_coeffs npd with [] => Err IndexError | c :: _ => Ok (like ndim x0 (nat_ (t_arr inprod) [] * c)) end
  | Some y =>
      d <- tbin Rminus x0 y ;; d <- inplace m Rmult d (mt_scale_t sc k) ;;
      p0 <- tbin Rmult s0 d ;; proj0 <- tsum_last ndim p0 ;;
      p1 <- tbin Rmult s1 d ;; proj1 <- tsum_last ndim p1 ;;
      n <- tsum_last ndim (tpow d 2) ;; let r := tfun sqrt n in
      a <- poly_call m npd r ;; res <- tbin Rmult inprod a ;;
      pp <- tbin Rmult proj0 proj1 ;; b <- poly_call m pd r ;; pp <- tbin Rmult pp b ;;
      res <- inplace m Rminus res pp ;;
      tbin Rmult res (tfun exp (tneg r))
  end.
(** 294-318, 320-338 *)
Definition umatdirdir_b (m : mode) (sc : bool) (k : matern) (dir0 dir1 : array) (poly : pypoly) (x0 : tnd) (x1 : option tnd) : result tnd :=
  let ndim := length (mt_shape k) in
  p <- tbin Rmult (tarr (mt_shape k) dir0) (tarr (mt_shape k) dir1) ;; p <- tbin Rmult p (tpow (mt_scale_t sc k) 2) ;;
  f <- tsqueeze p ;;
  match x1 with
  | None => match float_coeffs poly with [] => Err IndexError | c :: _ => Ok (like ndim x0 (nat_ (t_arr f) [] * c)) end
  | Some _ =>
      r <- dists m ndim (mt_scale_t sc k) x0 x1 ;;
      v <- poly_call m poly r ;; a <- tbin Rmult f v ;; tbin Rmult a (tfun exp (tneg r))
  end.
(** 397-410, 412-421 *)
Definition umatlap_b (m : mode) (sc : bool) (k : matern) (w : array) (poly : pypoly) (x0 : tnd) (x1 : option tnd) : result tnd :=
  p <- tbin Rmult (tarr (mt_shape k) w) (mt_scale_t sc k) ;; p <- tbin Rmult p (mt_scale_t sc k) ;; f <- tsqueeze p ;;
  r <- dists m (length (mt_shape k)) (mt_scale_t sc k) x0 x1 ;;
  a <- tbin Rmult f (tfun exp (tneg r)) ;; v <- poly_call m poly r ;; tbin Rmult a v.
(** 470-483, 485-494 *)
Definition umatlaplap_b (m : mode) (sc : bool) (k : matern) (w0 w1 : array) (poly : pypoly) (x0 : tnd) (x1 : option tnd) : result tnd :=
  p <- tbin Rmult (tarr (mt_shape k) w0) (tarr (mt_shape k) w1) ;; p <- tbin Rmult p (tpow (mt_scale_t sc k) 4) ;; f <- tsqueeze p ;;
  r <- dists m (length (mt_shape k)) (mt_scale_t sc k) x0 x1 ;;
  a <- tbin Rmult f (tfun exp (tneg r)) ;; v <- poly_call m poly r ;; tbin Rmult a v.
(** 548-571, 573-586 *)
Definition umatdirlap_scaled_b (sc : bool) (k : matern) (dir w : array) (reverse : bool) : result tnd :=
  s <- tbin Rmult (tarr (mt_shape k) w) (tpow (mt_scale_t sc k) 3) ;; s <- tbin Rmult s (tarr (mt_shape k) dir) ;;
  if reverse then tbin Rmult s (num (-1)) else Ok s.
Definition umatdirlap_b (m : mode) (sc : bool) (k : matern) (dir w : array) (reverse : bool) (poly : pypoly) (x0 : tnd) (x1 : option tnd) : result tnd :=
  let ndim := length (mt_shape k) in
  match x1 with
  | None => Ok (like ndim x0 0)
  | Some y =>
      d <- tbin Rminus x0 y ;; d <- inplace m Rmult d (mt_scale_t sc k) ;;
      s <- umatdirlap_scaled_b sc k dir w reverse ;;
      p <- tbin Rmult s d ;; proj <- tsum_last ndim p ;;
      n <- tsum_last ndim (tpow d 2) ;; let r := tfun sqrt n in
      v <- poly_call m poly r ;; a <- tbin Rmult (tfun exp (tneg r)) v ;; tbin Rmult a proj
  end.
(** [JaxLambdaCovarianceFunction] (_jax.py:150-185): [jnp.vectorize] broadcasts the batches;
    derivatives at integers are not modelled. *)
Definition lambda_b (sh : shape) (f : array -> array -> R) (x0 : tnd) (x1 : option tnd) : result tnd :=
  if t_int x0 || match x1 with Some y => t_int y | None => false end then Err Unmodelled else
  a <- leaf_eval (F := RF) sh [] [] (fun p q _ _ => f p q) (t_arr x0) (option_map t_arr x1) ;; Ok (T false a).
(** [functools.reduce(operator.add, ...)] *)
Definition reduce_add (l : list tnd) : result tnd :=
  match l with [] => Err TypeError | a :: l' => fold_left (fun acc b => a <- acc ;; tbin Rplus a b) l' (Ok a) end.

(** [k(x0, x1)] and [k.jax(x0, x1)]; scaled and summed covariance functions:
    _jax_arithmetic.py:31-32, 62-66. *)
Fixpoint bcall (m : mode) (sc : bool) (c : cov) (x0 : tnd) (x1 : option tnd) : result tnd :=
  checked (c_shape c) (fun x0 x1 =>
    match c with
    | CExp e => expquad_b m sc e x0 x1
    | CExpDir e d r => expdir_b sc e d r x0 x1
    | CExpDirDir e d0 d1 => expdirdir_b sc e d0 d1 x0 x1
    | CExpLap e w _ => explap_b sc e w x0 x1
    | CExpLapLap e w0 w1 => explaplap_b sc e w0 w1 x0 x1
    | CExpDirLap e d w r => expdirlap_b m sc e d w r x0 x1
    | CMat k => matern_b m sc k x0 x1
    | CMatDir k d r q => matdir_b m sc k d r q x0 x1
    | CMatDirDir k d0 d1 a b => matdirdir_b m sc k d0 d1 a b x0 x1
    | CUMatDirDir k d0 d1 q => umatdirdir_b m sc k d0 d1 q x0 x1
    | CUMatLap k w _ q => umatlap_b m sc k w q x0 x1
    | CUMatLapLap k w0 w1 q => umatlaplap_b m sc k w0 w1 q x0 x1
    | CUMatDirLap k d w r q => umatdirlap_b m sc k d w r q x0 x1
    | CScaled s c' => v <- bcall m sc c' x0 x1 ;; tbin Rmult (num s) v
    | CSum cs => vs <- mapR (fun c' => bcall m sc c' x0 x1) cs ;; reduce_add vs
    | CJax sh f => lambda_b sh f x0 x1
    | CNotImpl => Err TypeError
    end) x0 x1.

(** ** KeOps *)
(** A [LazyTensor] by the dimension of its vectors and their entries for every pair of points.
    [Vi], [Vj] (pykeops) take 2-D arrays, [Pm] numbers and vectors. *)
Record lazy := mkL { l_dim : nat; l_at : nat -> nat -> nat -> R }.
Definition pm (a : tnd) : result lazy :=
  match t_shape a with
  | [] => Ok (mkL 1 (fun _ _ _ => nat_ (t_arr a) []))
  | [d] => Ok (mkL d (fun _ _ k => nat_ (t_arr a) [k]))
  | _ => Err Unmodelled
  end.
(** Binary operations: vectors of equal dimension, or one of dimension 1. *)
Definition lbin (op : R -> R -> R) (a b : lazy) : result lazy :=
  if (l_dim a =? l_dim b)%nat then Ok (mkL (l_dim a) (fun i j k => op (l_at a i j k) (l_at b i j k)))
  else if (l_dim a =? 1)%nat then Ok (mkL (l_dim b) (fun i j k => op (l_at a i j 0%nat) (l_at b i j k)))
  else if (l_dim b =? 1)%nat then Ok (mkL (l_dim a) (fun i j k => op (l_at a i j k) (l_at b i j 0%nat)))
  else Err ValueError.
Definition lfun (f : R -> R) (a : lazy) : lazy := mkL (l_dim a) (fun i j k => f (l_at a i j k)).
(** [.sum()] *)
Definition lsum (a : lazy) : lazy := mkL 1 (fun i j _ => rsum (map (l_at a i j) (seq 0 (l_dim a)))).
(** The points as 2-D array (diffops/_matern.py:117-120, 237-240, 593-596); other arrays are
    not modelled. *)
Definition rows (x : tnd) : result (nat * (nat -> nat -> R)) :=
  match t_shape x with
  | [_] => Ok (1%nat, fun i _ => nat_ (t_arr x) [i])
  | [_; d] => Ok (d, fun i k => nat_ (t_arr x) [i; k])
  | _ => Err Unmodelled
  end.
(** [Vi(x0) - Vj(x1)] *)
Definition ldiff (x0 x1 : tnd) : result lazy :=
  r0 <- rows x0 ;; r1 <- rows x1 ;;
  lbin Rminus (mkL (fst r0) (fun i _ k => snd r0 i k)) (mkL (fst r1) (fun _ j k => snd r1 j k)).
(** [Polynomial._evaluate_keops] (functions/_polynomial.py:79-86) *)
Fixpoint lhorner (res : lazy) (cs : list R) (x : lazy) : result lazy :=
  match cs with [] => Ok res | c :: cs' => a <- lbin Rmult res x ;; p <- pm (num c) ;; a <- lbin Rplus a p ;; lhorner a cs' x end.
Definition lpoly (p : pypoly) (x : lazy) : result lazy :=
  match rev (float_coeffs p) with [] => Err IndexError | c :: cs => a <- pm (num c) ;; lhorner a cs x end.
(** probnum's [_euclidean_distances_keops] *)
Definition ldists (scale : tnd) (x0 x1 : tnd) : result lazy :=
  d <- ldiff x0 x1 ;; s <- pm scale ;; d <- lbin Rmult d s ;; q <- lbin Rmult d d ;; Ok (lfun sqrt (lsum q)).
(** [_keops_lazy_tensor] (diffops/_matern.py:112-138, 232-267, 340-356, 423-437, 496-510, 588-610);
    the other classes inherit probnum's. *)
Definition keops (sc : bool) (c : cov) (x0 : tnd) (x1 : option tnd) : result lazy :=
  let y := match x1 with Some y => y | None => x0 end in
  match c with
  | CMatDir k dir reverse poly =>
      d <- ldiff x0 y ;; s <- pm (mt_scale_t sc k) ;; d <- lbin Rmult d s ;;
      sd <- tbin Rmult (mt_scale_t sc k) (tarr (mt_shape k) dir) ;;
      sd <- (if reverse then Ok sd else tbin Rmult sd (num (-1))) ;;
      p <- pm sd ;; pd <- lbin Rmult p d ;; let proj := lsum pd in
      q <- lbin Rmult d d ;; let r := lfun sqrt (lsum q) in
      res <- lpoly poly r ;; res <- lbin Rmult res (lfun (fun t => exp (- t)) r) ;; lbin Rmult res proj
  | CMatDirDir k dir0 dir1 npd pd =>
      d <- ldiff x0 y ;; s <- pm (mt_scale_t sc k) ;; d <- lbin Rmult d s ;;
      s0 <- tbin Rmult (mt_scale_t sc k) (tarr (mt_shape k) dir0) ;; p0 <- pm s0 ;; p0 <- lbin Rmult p0 d ;; let proj0 := lsum p0 in
      s1 <- tbin Rmult (mt_scale_t sc k) (tarr (mt_shape k) dir1) ;; p1 <- pm s1 ;; p1 <- lbin Rmult p1 d ;; let proj1 := lsum p1 in
      q <- lbin Rmult d d ;; let r := lfun sqrt (lsum q) in
      s01 <- tbin Rmult s0 s1 ;; ip <- pm (tsum s01) ;;
      a <- lpoly npd r ;; res <- lbin Rmult ip a ;;
      pp <- lbin Rmult proj0 proj1 ;; b <- lpoly pd r ;; pp <- lbin Rmult pp b ;;
      res <- lbin Rminus res pp ;; lbin Rmult res (lfun (fun t => exp (- t)) r)
  | CUMatDirDir k dir0 dir1 poly =>
      r <- ldists (mt_scale_t sc k) x0 y ;;
      p <- tbin Rmult (tarr (mt_shape k) dir0) (tarr (mt_shape k) dir1) ;; p <- tbin Rmult p (tpow (mt_scale_t sc k) 2) ;;
      f <- tsqueeze p ;; f <- pm f ;;
      v <- lpoly poly r ;; a <- lbin Rmult f v ;; lbin Rmult a (lfun (fun t => exp (- t)) r)
  | CUMatLap k w _ poly =>
      r <- ldists (mt_scale_t sc k) x0 y ;;
      p <- tbin Rmult (tarr (mt_shape k) w) (mt_scale_t sc k) ;; p <- tbin Rmult p (mt_scale_t sc k) ;; f <- tsqueeze p ;; f <- pm f ;;
      a <- lbin Rmult f (lfun (fun t => exp (- t)) r) ;; v <- lpoly poly r ;; lbin Rmult a v
  | CUMatLapLap k w0 w1 poly =>
      r <- ldists (mt_scale_t sc k) x0 y ;;
      p <- tbin Rmult (tarr (mt_shape k) w0) (tarr (mt_shape k) w1) ;; p <- tbin Rmult p (tpow (mt_scale_t sc k) 4) ;; f <- tsqueeze p ;; f <- pm f ;;
      a <- lbin Rmult f (lfun (fun t => exp (- t)) r) ;; v <- lpoly poly r ;; lbin Rmult a v
  | CUMatDirLap k dir w reverse poly =>
      d <- ldiff x0 y ;; s <- pm (mt_scale_t sc k) ;; d <- lbin Rmult d s ;;
      sd <- umatdirlap_scaled_b sc k dir w reverse ;; p <- pm sd ;; p <- lbin Rmult p d ;; let proj := lsum p in
      q <- lbin Rmult d d ;; let r := lfun sqrt (lsum q) in
      v <- lpoly poly r ;; a <- lbin Rmult (lfun (fun t => exp (- t)) r) v ;; lbin Rmult a proj
  | _ => Err Unmodelled
  end.
