(** Model of [randprocs/_gaussian_process/_conditional.py] and
    [randprocs/_gaussian_process/_lintransforms.py].

    A process is indexed by an arbitrary set [X] (a point, or a point and an
    output component) with values in an ordered field; a linear functional maps
    functions on [X] to vectors, in C order, and a linear function operator maps
    functions to functions ([X] stands for the disjoint union of all domains
    involved).  Validation and reshaping of the arguments are modelled in
    [ObsModel.v].  The sequence of cross-covariances held by
    [PriorPredictiveCrossCovariance] is modelled by its concatenation, and a Gram
    operator by its matrix, its property flags and its [solve] method. *)
From mathcomp Require Import all_ssreflect all_algebra.
From Verif Require Import Base Block2Model NormalModel.
Set Implicit Arguments. Unset Strict Implicit. Unset Printing Implicit Defensive.
Import GRing.Theory Num.Theory.
Local Open Scope ring_scope.

Section Model.
Variables (F : realFieldType) (X : Type).
(** Cholesky routine and [config.block_triangular_solves]. *)
Variable chol : forall n : nat, 'M[F]_n -> 'M[F]_n.
Variable tri : bool.

Definition fn := X -> F.
(** [pn.randprocs.GaussianProcess]: mean and covariance function. *)
Record gp := GP { gmean : fn; gcov : X -> fn }.
(** [LinearFunctional], [LinearFunctionOperator] as maps. *)
Definition functl p := fn -> 'cV[F]_p.
Definition funop := fn -> fn.
(** Process-vector cross-covariance (randvar index last). *)
Definition ccov n := X -> 'rV[F]_n.

(** [L(k, argnum=1)] ([_conditional.py] 352, [_lintransforms.py] 12) *)
Definition functl_cov1 p (L : functl p) (k : X -> fn) : ccov p := fun x => (L (k x))^T.
(** [L(crosscov)]: a functional applied to the process argument, entry (i, j) for
    the i-th output and the j-th random variable ([_conditional.py] 420-429,
    [_lintransforms.py] 13). *)
Definition functl_cc p n (L : functl p) (c : ccov n) : 'M[F]_(p, n) := \matrix_(i, j) L (fun x => c x 0 j) i 0.
(** [D(crosscov)] ([_conditional.py] 409-419) *)
Definition funop_cc n (D : funop) (c : ccov n) : ccov n := fun x => \row_j D (fun x' => c x' 0 j) x.
(** [L(gp)] ([_lintransforms.py] 9-23) *)
Definition functl_gp p (L : functl p) (g : gp) : normal F p :=
  Normal (L (gmean g)) (functl_cc L (functl_cov1 L (gcov g))).
(** [D(gp)] ([_lintransforms.py] 26-31): first argument 1, then argument 0. *)
Definition funop_gp (D : funop) (g : gp) : gp :=
  let crosscov := fun x y => D (gcov g x) y in
  GP (D (gmean g)) (fun x y => D (fun x' => crosscov x' y) x).

(** Arguments [Y], [L], [b] of one observation. *)
Record obs := Obs { o_dim : nat; o_L : functl o_dim; o_Y : 'cV[F]_o_dim; o_b : option (normal F o_dim) }.

(** [_preprocess_observations] ([_conditional.py] 350-399): [kLa], [pred_mean] and
    [gram], the latter declared symmetric positive definite. *)
Definition obs_kLa (prior : gp) (o : obs) : ccov (o_dim o) := functl_cov1 (@o_L o) (gcov prior).
Definition obs_pred_mean (prior : gp) (o : obs) : 'cV[F]_(o_dim o) :=
  let Lf := functl_gp (@o_L o) prior in
  if o_b o is Some b then nmean Lf + nmean b else nmean Lf.
Definition obs_gram (prior : gp) (o : obs) : op F (o_dim o) (o_dim o) :=
  let Lf := functl_gp (@o_L o) prior in
  Op (if o_b o is Some b then ncov Lf + ncov b else ncov Lf) (Flags true true false false).

(** A [ConditionalGaussianProcess] ([_conditional.py] 56-90).  [c_L], [c_Y], [c_b]
    are the concatenated functionals, observations and noise means. *)
Record cgp := CGP {
  c_dim : nat;
  c_prior : gp;
  c_L : functl c_dim;
  c_Y : 'cV[F]_c_dim;
  c_b : 'cV[F]_c_dim;
  c_kLas : ccov c_dim;
  c_gram : op F c_dim c_dim;
  c_solve : forall q, 'M[F]_(c_dim, q) -> result 'M[F]_(c_dim, q);
  c_w : 'cV[F]_c_dim }.
Arguments c_solve c {q} _.

(** [b.mean], nothing to subtract without noise ([_conditional.py] 100-104). *)
Definition b_mean p (b : option (normal F p)) : 'cV[F]_p := if b is Some c then nmean c else 0.

(** [from_observations] ([_conditional.py] 26-54) *)
Definition from_observations (prior : gp) (o : obs) : result cgp :=
  let gram := obs_gram prior o in
  let solve := fun q (z : 'M[F]_(o_dim o, q)) => Ok (invmx (mx gram) *m z) in
  bind (solve _ (o_Y o - obs_pred_mean prior o)) (fun w =>
  Ok (@CGP (o_dim o) prior (@o_L o) (o_Y o) (b_mean (o_b o)) (obs_kLa prior o) gram solve w)).

(** [condition_on_observations] ([_conditional.py] 253-294) *)
Definition condition_on (s : cgp) (o : obs) : result cgp :=
  let prior := c_prior s in
  let gram := obs_gram prior o in
  let prev := functl_cc (@o_L o) (@c_kLas s) in
  bind (mk_block2 (c_gram s) (Some (op_T (Op prev no_flags))) None gram true) (fun M =>
  bind (b2_schur_update chol M (c_w s) (o_Y o - obs_pred_mean prior o)) (fun w =>
  Ok (@CGP (c_dim s + o_dim o) prior
        (fun f => col_mx (c_L s f) (o_L o f)) (col_mx (c_Y s) (o_Y o)) (col_mx (c_b s) (b_mean (o_b o)))
        (fun x => row_mx (c_kLas s x) (obs_kLa prior o x))
        (Op (b2_todense M) (bfl M)) (fun q z => b2_solve chol tri M z) w))).

(** [Mean] ([_conditional.py] 193-197) *)
Definition c_mean (s : cgp) : fn := fun x => gmean (c_prior s) x + (c_kLas s x *m c_w s) 0 0.
(** [CovarianceFunction._evaluate] for scalar-valued processes
    ([_conditional.py] 223-231); without [x1] the same cross-covariance is used
    twice. *)
Definition c_cov (s : cgp) (x0 : X) (x1 : option X) : result F :=
  let k_xx := gcov (c_prior s) x0 (odflt x0 x1) in
  let kLas_x0 := c_kLas s x0 in
  let kLas_x1 := if x1 is Some x then c_kLas s x else kLas_x0 in
  bind (c_solve s kLas_x1^T) (fun z => Ok (k_xx - (kLas_x0 *m z) 0 0)).
(** [CovarianceFunction._evaluate_linop] ([_conditional.py] 245-251) on finitely
    many points. *)
Definition c_kLas_linop (s : cgp) q (xs : 'I_q -> X) : 'M[F]_(q, c_dim s) := \matrix_(i, j) c_kLas s (xs i) 0 j.
Definition c_cov_linop (s : cgp) q0 q1 (xs0 : 'I_q0 -> X) (xs1 : 'I_q1 -> X) : result 'M[F]_(q0, q1) :=
  bind (c_solve s (c_kLas_linop s xs1)^T) (fun z =>
  Ok (\matrix_(i, j) gcov (c_prior s) (xs0 i) (xs1 j) - c_kLas_linop s xs0 *m z)).

(** [representer_weights] computed on demand ([_conditional.py] 96-110) *)
Definition lazy_weights (s : cgp) : result 'cV[F]_(c_dim s) :=
  c_solve s (c_Y s - c_L s (gmean (c_prior s)) - c_b s).

(** A linear function operator applied to a conditioned process
    ([_conditional.py] 432-450) *)
Definition funop_cgp (D : funop) (s : cgp) : cgp :=
  @CGP (c_dim s) (funop_gp D (c_prior s)) (c_L s) (c_Y s) (c_b s) (funop_cc D (@c_kLas s)) (c_gram s) (@c_solve s) (c_w s).
(** A linear functional applied to a conditioned process
    ([_conditional.py] 453-467) *)
Definition functl_cgp p (L : functl p) (s : cgp) : normal F p :=
  let prior := functl_gp L (c_prior s) in
  let crosscov := functl_cc L (@c_kLas s) in
  Normal (nmean prior + crosscov *m c_w s) (ncov prior - crosscov *m invmx (mx (c_gram s)) *m crosscov^T).

(** The process a user holds: a prior or a conditioned process, and the two
    operations on it ([_conditional.py] 402-406: conditioning a prior is
    [from_observations]). *)
Inductive process := Plain (g : gp) | Posterior (s : cgp).
Inductive event := Cond (o : obs) | Appl (D : funop).
Definition step (p : process) (e : event) : result process :=
  match p, e with
  | Plain g, Cond o => bind (from_observations g o) (fun s => Ok (Posterior s))
  | Plain g, Appl D => Ok (Plain (funop_gp D g))
  | Posterior s, Cond o => bind (condition_on s o) (fun s' => Ok (Posterior s'))
  | Posterior s, Appl D => Ok (Posterior (funop_cgp D s))
  end.
Fixpoint run (p : process) (es : seq event) : result process :=
  match es with [::] => Ok p | e :: es' => bind (step p e) (fun p' => run p' es') end.
Definition p_mean (p : process) : fn := match p with Plain g => gmean g | Posterior s => c_mean s end.
Definition p_cov (p : process) (x0 : X) (x1 : option X) : result F :=
  match p with Plain g => Ok (gcov g x0 (odflt x0 x1)) | Posterior s => c_cov s x0 x1 end.
Definition p_functl p (L : functl p) (pr : process) : normal F p :=
  match pr with Plain g => functl_gp L g | Posterior s => functl_cgp L s end.
End Model.
Arguments c_solve {F X} c {q} _.
