(** Further theorems on rejected inputs and on shapes, for properties C28, C45, C46, C49, C57, C63 and C65. *)
From Coq Require Import List Reals Bool Arith ZArith Lra Lia.
From Verif Require Import Base NdArray NdData PolyModel PolyClassModel PiecewiseModel FunExprModel DiffopModel LfoModel DomainModel PdeModel.
From Verif Require BlockModel CovModel KernelModel ParamModel ShapedModel DtypeModel BatchModel.
Import ListNotations.
Open Scope R_scope.

(** * C45: the identity operator *)
(** It returns the covariance function itself exactly if the argument number is 0 or 1, the
    covariance function lives on the domain of the operator and the codomain is scalar;
    anything else is a ValueError. *)
Theorem C45_identity : forall n dom cod c argnum,
  (KernelModel.ccall (S n) (OId dom cod) c argnum = Ok c <-> (argnum = 0%nat \/ argnum = 1%nat) /\ KernelModel.c_shape c = dom /\ cod = []) /\
  (forall c', KernelModel.ccall (S n) (OId dom cod) c argnum = Ok c' -> c' = c) /\
  (forall e, KernelModel.ccall (S n) (OId dom cod) c argnum = Err e -> e = ValueError).
Proof.
  intros n dom cod c argnum. cbn [KernelModel.ccall]. unfold KernelModel.cov_id_call, KernelModel.validate.
  destruct argnum as [|[|a]]; cbn [Nat.eqb orb negb bind].
  3: { split; [split; [discriminate|intros [[?|?] _]; discriminate]|split; [discriminate|now intros e [= <-]]]. }
  all: destruct (shape_eqb_spec (KernelModel.c_shape c) dom) as [E|E]; cbn [negb bind];
    [|split; [split; [discriminate|tauto]|split; [discriminate|now intros e [= <-]]]];
    destruct (shape_eqb_spec [] cod) as [E'|E']; cbn [negb bind];
    [split; [split; [now auto|reflexivity]|split; [now intros c' [= <-]|discriminate]]
    |split; [split; [discriminate|intros (_ & _ & H); congruence]|split; [discriminate|now intros e [= <-]]]].
Qed.
Example C45_identity_nontrivial : exists c c',
  KernelModel.ccall 1 (OId [2%nat] []) c 0 = Ok c /\ KernelModel.ccall 1 (OId [] [2%nat]) c' 0 = Err ValueError.
Proof. exists (KernelModel.CJax [2%nat] (fun _ _ => 0)), (KernelModel.CJax [] (fun _ _ => 0)). split; reflexivity. Qed.
Print Assumptions C45_identity.

(** * C43: the zero function *)
(** A weighted Laplacian without a rule for constants maps the zero function to the zero
    function on the operator's domain with scalar values, whatever the shapes of the former
    (no check is made); the other differential operators refuse a zero function of other shapes. *)
Theorem C43_zero_function : forall n sh w i o,
  call (S n) (ODiff (DLap false sh w)) (FZero i o) = Ok (FZero sh []) /\
  (call (S n) (ODiff (DLap true sh w)) (FZero i o) = if list_eq_dec Nat.eq_dec i sh then
     if list_eq_dec Nat.eq_dec o [] then Ok (FZero sh []) else Err AssertionError else Err AssertionError).
Proof.
  intros n sh w i o. split; [reflexivity|]. cbn [call]. unfold diffop_call. cbn [handles_constants is_constant_fn andb in_shape out_shape d_dom].
  destruct (shape_eqb_spec i sh) as [E|E], (list_eq_dec Nat.eq_dec i sh); try congruence; cbn [negb]; [|reflexivity].
  destruct (shape_eqb_spec o []) as [E'|E'], (list_eq_dec Nat.eq_dec o []); try congruence; reflexivity.
Qed.
Print Assumptions C43_zero_function.

(** * C49: initial boundary value problems, observations *)
(** A rejected problem raises a ValueError, unless the comparison of the initial condition's
    domain with the spatial domain raises. *)
Theorem C49_ibvp_rejects : forall p ic bcs sol e, mk_ibvp p ic bcs sol = Err e ->
  e = ValueError \/ exists dt l u sp, factors (pde_domain p) = [Interval dt l u; sp] /\ dom_eq (bc_boundary ic) sp = Err e.
Proof.
  intros p ic bcs sol e. unfold mk_ibvp.
  destruct (factors (pde_domain p)) as [|[dt l u| | |] [|sp [|]]]; try (intros [= <-]; now left).
  destruct (dom_eq (bc_boundary ic) sp) as [[|]|e'] eqn:E; cbn [bind negb].
  - unfold mk_bvp. destruct (forallb _ _); cbn [negb bind]; [|intros [= <-]; now left]. destruct sol as [s|]; cbn [bind]; [|discriminate].
    destruct (shape_eqb (in_shape _) _); cbn [negb bind]; [|intros [= <-]; now left]. destruct (shape_eqb (out_shape _) _); cbn [negb bind]; [discriminate|intros [= <-]; now left].
  - intros [= <-]. now left.
  - intros [= <-]. right. exists dt, l, u, sp. auto.
Qed.
Print Assumptions C49_ibvp_rejects.
(** A point domain with one coordinate is its number, given as a scalar or as an array of
    one entry; an array of more entries raises a TypeError, an array with more axes a
    NotImplementedError. *)
Theorem C49_point_number : forall dt x xs n sh,
  point_float (mkarray dt [] [x]) = Ok x /\ point_float (mkarray dt [1%nat] [x]) = Ok x /\
  (n <> 1%nat -> point_float (mkarray dt [n] xs) = Err TypeError) /\
  ((2 <= length sh)%nat -> point_float (mkarray dt sh xs) = Err NotImplementedError).
Proof.
  intros dt x xs n sh. split; [reflexivity|]. split; [reflexivity|]. split.
  - destruct n as [|[|n]]; [reflexivity|congruence|reflexivity].
  - intros H. destruct sh as [|a [|b sh]]; cbn in H; try lia. unfold point_float. cbn [a_shape]. destruct a as [|[|a]]; reflexivity.
Qed.
Print Assumptions C49_point_number.
(** Two conditions at numbers of the line: the observations exist exactly if both functions
    are functions of a scalar with values of one shape, and a ValueError is raised otherwise;
    so is it for another number of conditions and for conditions on other domains. *)
Theorem C49_observations_rejects :
  (forall dt l r f g L M, ~ (in_shape f = [] /\ in_shape g = [] /\ out_shape f = out_shape g) ->
     dirichlet_observations [Bcond (Point (mkarray dt [] [l])) L f; Bcond (Point (mkarray dt [] [r])) M g] = Err ValueError) /\
  (forall bcs, length bcs <> 2%nat -> dirichlet_observations bcs = Err ValueError) /\
  (forall b0 b1, (forall p, bc_boundary b0 <> Point p) \/ (forall p, bc_boundary b1 <> Point p) -> dirichlet_observations [b0; b1] = Err ValueError).
Proof.
  split; [|split].
  - intros dt l r f g L M H. unfold dirichlet_observations, call_at. cbn [bc_boundary bc_values point_float a_shape a_data nth bind].
    destruct (shape_eqb_spec (in_shape f) []); cbn [bind]; [|reflexivity]. destruct (shape_eqb_spec (in_shape g) []); cbn [bind]; [|reflexivity].
    destruct (shape_eqb_spec (out_shape f) (out_shape g)); [tauto|reflexivity].
  - intros [|b0 [|b1 [|]]] H; try reflexivity. now contradiction H.
  - intros [[] ? ?] [[] ? ?] H; try reflexivity. exfalso. destruct H as [H|H]; eapply H; reflexivity.
Qed.
Print Assumptions C49_observations_rejects.

(** * C46: rejected boundary values *)
(** Boundary values that are one number without an axis raise a TypeError; a boundary function of points of
    another shape than the interval's raises a ValueError. *)
Theorem C46_boundary_values_reject : forall dom dt l r rhs alpha v f sol, asdomain dom = Ok (Interval dt l r) ->
  match rhs with Some g => in_shape g = [] /\ out_shape g = [] | None => True end ->
  (sol <> None -> is_floating dt = true -> poisson_problem dom rhs alpha (BVArr [] v) sol = Err TypeError) /\
  (in_shape f <> [] -> poisson_problem dom rhs alpha (BVFn f) sol = Err ValueError).
Proof.
  intros dom dt l r rhs alpha v f sol D Hr.
  assert (P : exists q, poisson_equation dom rhs alpha = Ok q /\ pde_domain q = Interval dt l r).
  { unfold poisson_equation. rewrite D. cbn [bind]. unfold linear_pde. cbn [asdomain bind]. unfold o_scale.
    destruct rhs as [g|]; [destruct Hr as [E1 E2]|]; cbn; rewrite ?E1, ?E2; cbn; eexists; split; reflexivity. }
  destruct P as (q & Eq & Dq). split.
  - intros Hs Fl. unfold poisson_problem. rewrite Eq. cbn [bind]. rewrite Dq. cbn [dshape shape_eqb bind]. destruct sol as [s|]; [|congruence]. cbn [bind].
    unfold poisson_conditions. cbn [boundary]. unfold simple_boundary, mk_point. cbn. rewrite ?Fl. reflexivity.
  - intros Hf. unfold poisson_problem. rewrite Eq. cbn [bind]. rewrite Dq. cbn [dshape shape_eqb bind]. unfold endpoint_values, call_at.
    destruct (shape_eqb_spec (in_shape f) []); [congruence|reflexivity].
Qed.
Print Assumptions C46_boundary_values_reject.

(** * C45: sums of covariance functions *)
(** They need the same input shape and two covariance functions; the value is the sum of the values. *)
Theorem C45_sum : forall k0 k1,
  let isc (k : KernelModel.cov) := k <> KernelModel.CNotImpl in
  (isc k0 -> isc k1 -> KernelModel.c_shape k1 = KernelModel.c_shape k0 ->
     exists k, KernelModel.cov_add k0 k1 = Ok k /\ KernelModel.c_shape k = KernelModel.c_shape k0 /\
       forall x y, KernelModel.ceval k x y = KernelModel.ceval k0 x y + KernelModel.ceval k1 x y) /\
  (isc k0 -> isc k1 -> KernelModel.c_shape k1 <> KernelModel.c_shape k0 -> KernelModel.cov_add k0 k1 = Err ValueError) /\
  (~ isc k0 \/ ~ isc k1 -> KernelModel.cov_add k0 k1 = Err TypeError).
Proof.
  intros k0 k1 isc.
  assert (I : forall k, isc k -> KernelModel.is_cov k = true) by (intros k; unfold isc; destruct k; cbn; congruence).
  assert (J : forall k, ~ isc k -> KernelModel.is_cov k = false) by (intros k H; destruct k; try (elim H; discriminate); reflexivity).
  unfold KernelModel.cov_add, KernelModel.mk_covsum. cbn [forallb].
  split; [|split].
  - intros H0 H1 E. rewrite (I _ H0), (I _ H1), E, !shape_eqb_refl. cbn. eexists. split; [reflexivity|]. split; [reflexivity|].
    intros x y. cbn [KernelModel.ceval map]. unfold rsum. cbn [fold_right]. ring.
  - intros H0 H1 E. rewrite (I _ H0), (I _ H1). cbn [negb andb]. rewrite shape_eqb_refl.
    destruct (shape_eqb_spec (KernelModel.c_shape k1) (KernelModel.c_shape k0)); [contradiction|reflexivity].
  - intros [H|H]; rewrite (J _ H); cbn [negb andb]; rewrite ?andb_false_r; reflexivity.
Qed.
Example C45_sum_nontrivial : exists k0 k1 k2 k,
  KernelModel.cov_add k0 k1 = Ok k /\ KernelModel.cov_add k0 k2 = Err ValueError.
Proof.
  exists (KernelModel.CExp (KernelModel.ExpQuad [] (fun _ => 1))), (KernelModel.CExp (KernelModel.ExpQuad [] (fun _ => 2))), (KernelModel.CExp (KernelModel.ExpQuad [2%nat] (fun _ => 2))).
  eexists. split; reflexivity.
Qed.
Print Assumptions C45_sum.

(** A problem on an interval with a constant right-hand side and no given solution needs exactly two boundary
    values: one number without an axis raises a TypeError, an array with another number of rows a ValueError. *)
Theorem C46_constant_rejects : forall dom dt l r rhs alpha n sh v, asdomain dom = Ok (Interval dt l r) ->
  match rhs with Some g => (exists w, g = FConst [] [] w) \/ g = FZero [] [] | None => True end ->
  poisson_problem dom rhs alpha (BVArr [] v) None = Err TypeError /\
  (n <> 2%nat -> poisson_problem dom rhs alpha (BVArr (n :: sh) v) None = Err ValueError).
Proof.
  intros dom dt l r rhs alpha n sh v D Hr.
  assert (P : exists q c, poisson_equation dom rhs alpha = Ok q /\ pde_domain q = Interval dt l r /\ constant_value (pde_rhs q) = Some c).
  { unfold poisson_equation. rewrite D. cbn [bind]. unfold linear_pde. cbn [asdomain bind]. unfold o_scale.
    destruct rhs as [g|]; [destruct Hr as [[w ->]| ->]|]; cbn; do 2 eexists; split; [reflexivity|split; reflexivity|reflexivity|split; reflexivity|reflexivity|split; reflexivity]. }
  destruct P as (q & c & Eq & Dq & Cq). unfold poisson_problem. rewrite Eq. cbn [bind]. rewrite Dq. cbn [dshape shape_eqb bind]. unfold attached_solution. rewrite Cq.
  split; [reflexivity|]. intros Hn. destruct n as [|[|[|n]]]; try reflexivity. congruence.
Qed.
Example C46_constant_rejects_nontrivial : exists dom dt l r, asdomain dom = Ok (Interval dt l r) /\
  poisson_problem dom None 1 (BVArr [3%nat] (fun _ => 0)) None = Err ValueError.
Proof.
  exists (DLDomain (Interval F64 0 1)), F64, 0, 1. split; [reflexivity|].
  apply (C46_constant_rejects (DLDomain (Interval F64 0 1)) F64 0 1 None 1 3 [] (fun _ => 0) eq_refl I). discriminate.
Qed.
Print Assumptions C46_constant_rejects.

(** * C07: constants on different domains *)
(** Adding constant functions with different input shapes raises an AssertionError; so does adding a zero
    function whose input or output shape differs. *)
Theorem C07_constants_reject : forall i i' o o' v v',
  (i <> i' -> fn_add (FConst i o v) (FConst i' o' v') = Err AssertionError /\ fn_add (FZero i o) (FConst i' o' v') = Err AssertionError) /\
  (i <> i' \/ o <> o' -> fn_add (FConst i o v) (FZero i' o') = Err AssertionError /\ fn_add (FZero i o) (FZero i' o') = Err AssertionError).
Proof.
  intros i i' o o' v v'. split.
  - intros H. cbn [fn_add]. unfold const_add_const. destruct (shape_eqb_spec i i'); [contradiction|split; reflexivity].
  - intros H. cbn [fn_add]. unfold add_zero. cbn [in_shape out_shape].
    destruct (shape_eqb_spec i' i), (shape_eqb_spec o' o); cbn [negb]; try (split; reflexivity). exfalso. destruct H; congruence.
Qed.
Example C07_constants_reject_nontrivial : fn_add (FConst [2%nat] [] (fun _ => 1)) (FConst [] [] (fun _ => 1)) = Err AssertionError.
Proof. apply C07_constants_reject. discriminate. Qed.
Print Assumptions C07_constants_reject.
