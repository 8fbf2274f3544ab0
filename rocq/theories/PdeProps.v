(** C46-C49: boundary value problems, their validation and the attached solutions. *)
From Coq Require Import List Reals Lra Lia Bool Arith ZArith FunctionalExtensionality.
From Coquelicot Require Import Coquelicot.
From Verif Require Import Base NdArray PolyModel PolySpec PolyProofs PolyClassModel PolyCalc PiecewiseModel PiecewiseSpec PiecewiseProofs
  FunExprModel DiffopModel DiffopSpec DiffopProofs LfoModel LfoSpec LfoSmooth DomainModel PdeModel PdeProofs.
Import ListNotations.
Open Scope R_scope.

(** * C49: validation *)
(** A differential equation is accepted exactly if the operator and the right-hand side
    fit the domain; an absent right-hand side is the zero function. *)
Theorem C49_pde : forall d L rhs p, linear_pde (DLDomain d) L rhs = Ok p <->
  p = Pde d L (match rhs with Some f => f | None => FZero (dshape d) (snd (o_out L)) end) /\
  fst (o_in L) = dshape d /\ fst (o_out L) = dshape d /\
  match rhs with Some f => in_shape f = dshape d /\ out_shape f = snd (o_out L) | None => True end.
Proof.
  intros d L rhs p. unfold linear_pde. cbn [asdomain bind].
  destruct (shape_eqb_spec (fst (o_in L)) (dshape d)) as [E1|E1]; cbn [negb]; [|split; [congruence|tauto]].
  destruct (shape_eqb_spec (fst (o_in L)) (fst (o_out L))) as [E2|E2]; cbn [negb];
    [|split; [congruence|intros (_ & A & B & _); congruence]].
  destruct rhs as [f|]; cbn [in_shape out_shape].
  - destruct (shape_eqb_spec (in_shape f) (dshape d)) as [E3|E3]; cbn [negb]; [|split; [congruence|tauto]].
    destruct (shape_eqb_spec (out_shape f) (snd (o_out L))) as [E4|E4]; cbn [negb]; [|split; [congruence|tauto]].
    split; [intros [= <-]; rewrite <- E2; auto|now intros (-> & _)].
  - rewrite !shape_eqb_refl. cbn [negb]. split; [intros [= <-]; rewrite <- E2; auto|now intros (-> & _)].
Qed.
Theorem C49_pde_rejects : forall d L rhs e, linear_pde (DLDomain d) L rhs = Err e ->
  e = ValueError \/ e = AssertionError /\ fst (o_in L) = dshape d /\ fst (o_out L) <> dshape d.
Proof.
  intros d L rhs e. unfold linear_pde. cbn [asdomain bind].
  destruct (shape_eqb_spec (fst (o_in L)) (dshape d)) as [E1|E1]; cbn [negb]; [|intros [= <-]; auto].
  destruct (shape_eqb_spec (fst (o_in L)) (fst (o_out L))) as [E2|E2]; cbn [negb]; [|intros [= <-]; right; repeat split; congruence].
  destruct (shape_eqb_spec (in_shape (match rhs with Some f => f | None => FZero (dshape d) (snd (o_out L)) end)) (dshape d)); cbn [negb]; [|intros [= <-]; auto].
  destruct (shape_eqb_spec (out_shape (match rhs with Some f => f | None => FZero (dshape d) (snd (o_out L)) end)) (snd (o_out L))); cbn [negb]; [discriminate|intros [= <-]; auto].
Qed.
(** A boundary condition is accepted exactly if the operator accepts functions on the
    boundary part and the values fit its outputs; an array stands for the constant function. *)
Definition values_fn (L : lfo) (v : bvalue) : fn := match v with VFn f => f | VArr sh a => FConst (fst (o_out L)) sh a end.
Theorem C49_condition : forall b L v c, boundary_condition (DLDomain b) L v = Ok c <->
  c = Bcond b L (values_fn L v) /\ fst (o_in L) = dshape b /\
  match v with VFn f => in_shape f = fst (o_out L) /\ out_shape f = snd (o_out L) | VArr sh _ => sh = snd (o_out L) end.
Proof.
  intros b L v c. unfold boundary_condition. cbn [asdomain bind].
  destruct (shape_eqb_spec (fst (o_in L)) (dshape b)) as [E1|E1]; cbn [negb]; [|split; [congruence|tauto]].
  destruct v as [f|sh a]; cbn [in_shape out_shape values_fn].
  - destruct (shape_eqb_spec (in_shape f) (fst (o_out L))) as [E3|E3]; cbn [negb]; [|split; [congruence|tauto]].
    destruct (shape_eqb_spec (out_shape f) (snd (o_out L))) as [E4|E4]; cbn [negb]; [|split; [congruence|tauto]].
    split; [intros [= <-]; auto|now intros (-> & _)].
  - rewrite shape_eqb_refl. cbn [negb]. destruct (shape_eqb_spec sh (snd (o_out L))) as [E4|E4]; cbn [negb]; [|split; [congruence|tauto]].
    split; [intros [= <-]; auto|now intros (-> & _)].
Qed.
Theorem C49_condition_rejects : forall b L v e, boundary_condition (DLDomain b) L v = Err e -> e = ValueError.
Proof.
  intros b L v e. unfold boundary_condition. cbn [asdomain bind].
  destruct (shape_eqb (fst (o_in L)) (dshape b)); cbn [negb]; [|congruence].
  destruct (shape_eqb (in_shape _) _); cbn [negb]; [|congruence]. destruct (shape_eqb (out_shape _) _); cbn [negb]; congruence.
Qed.
(** A Dirichlet condition constrains the values themselves: the operator is the identity on
    functions over the boundary part, and a function is accepted exactly if it is defined there. *)
Theorem C49_dirichlet : forall b v c, dirichlet b v = Ok c <->
  match v with
  | VFn f => in_shape f = dshape b /\ c = Bcond b (OId (dshape b) (out_shape f)) f
  | VArr sh a => c = Bcond b (OId (dshape b) sh) (FConst (dshape b) sh a)
  end.
Proof.
  intros b v c. unfold dirichlet. rewrite C49_condition. cbn [o_in o_out fst snd]. destruct v as [f|sh a]; cbn [values_fn o_out fst]; tauto.
Qed.
(** A boundary value problem is accepted exactly if all boundary parts live in the space of the
    domain and an attached solution fits domain and operator. *)
Theorem C49_bvp : forall p bcs sol q, mk_bvp p bcs sol = Ok q <->
  q = Bvp p bcs sol /\ (forall b, In b bcs -> dshape (bc_boundary b) = dshape (pde_domain p)) /\
  match sol with Some s => in_shape s = dshape (pde_domain p) /\ out_shape s = snd (o_in (pde_op p)) | None => True end.
Proof.
  intros p bcs sol q. unfold mk_bvp.
  assert (B : forallb (fun b => shape_eqb (dshape (bc_boundary b)) (dshape (pde_domain p))) bcs = true <->
    forall b, In b bcs -> dshape (bc_boundary b) = dshape (pde_domain p)).
  { rewrite forallb_forall. split; intros H b Hb; specialize (H b Hb); destruct (shape_eqb_spec (dshape (bc_boundary b)) (dshape (pde_domain p))); congruence. }
  destruct (forallb _ bcs); cbn [negb].
  - assert (B' := proj1 B eq_refl). destruct sol as [s|].
    + destruct (shape_eqb_spec (in_shape s) (dshape (pde_domain p))) as [E3|E3]; cbn [negb]; [|split; [congruence|tauto]].
      destruct (shape_eqb_spec (out_shape s) (snd (o_in (pde_op p)))) as [E4|E4]; cbn [negb]; [|split; [congruence|tauto]].
      split; [intros [= <-]; auto|now intros (-> & _)].
    + split; [intros [= <-]; auto|now intros (-> & _)].
  - split; [congruence|]. intros (_ & H & _). apply B in H. discriminate.
Qed.
Theorem C49_bvp_rejects : forall p bcs sol e, mk_bvp p bcs sol = Err e -> e = ValueError.
Proof.
  intros p bcs sol e. unfold mk_bvp. destruct (forallb _ _); cbn [negb]; [|congruence]. destruct sol as [s|]; [|congruence].
  destruct (shape_eqb (in_shape _) _); cbn [negb]; [|congruence]. destruct (shape_eqb (out_shape _) _); cbn [negb]; congruence.
Qed.
(** An initial boundary value problem needs a time interval times one spatial domain, and an
    initial condition on a domain equal to that spatial domain. *)
Theorem C49_ibvp : forall p ic bcs sol r, mk_ibvp p ic bcs sol = Ok r <->
  (exists dt l u sp, factors (pde_domain p) = [Interval dt l u; sp] /\ dom_eq (bc_boundary ic) sp = Ok true) /\
  exists q, mk_bvp p bcs sol = Ok q /\ r = (q, ic).
Proof.
  intros p ic bcs sol r. unfold mk_ibvp.
  destruct (factors (pde_domain p)) as [|[dt l u| | |] [|sp [|]]]; try (split; [congruence|intros [(? & ? & ? & ? & H & _) _]; discriminate]).
  destruct (dom_eq (bc_boundary ic) sp) as [[|]|e] eqn:E; cbn [bind negb].
  - destruct (mk_bvp p bcs sol) as [q|e']; cbn [bind].
    + split; [intros [= <-]; split; [exists dt, l, u, sp; auto|exists q; auto]|intros (_ & q' & [= <-] & ->); reflexivity].
    + split; [congruence|intros (_ & q' & H & _); discriminate].
  - split; [congruence|intros [(? & ? & ? & ? & [= <- <- <- <-] & H2) _]; congruence].
  - split; [congruence|intros [(? & ? & ? & ? & [= <- <- <- <-] & H2) _]; congruence].
Qed.
(** The observations of a one-dimensional Dirichlet problem pair each end point with the value
    of its own boundary function. *)
Theorem C49_observations : forall dt l r f g L M, in_shape f = [] -> in_shape g = [] -> out_shape f = out_shape g ->
  dirichlet_observations [Bcond (Point (mkarray dt [] [l])) L f; Bcond (Point (mkarray dt [] [r])) M g] =
  Ok ((l, r), (out_shape f, feval f (pt0 l), feval g (pt0 r))).
Proof.
  intros dt l r f g L M Hf Hg Ho. unfold dirichlet_observations, call_at. cbn [bc_boundary bc_values point_float a_shape a_data nth bind].
  rewrite Hf, Hg. cbn [shape_eqb]. rewrite shape_eqb_refl. cbn [bind]. rewrite Ho, shape_eqb_refl. reflexivity.
Qed.
(** Anything but two point conditions is refused. *)
Theorem C49_observations_points : forall bcs o, dirichlet_observations bcs = Ok o ->
  exists p q L M f g, bcs = [Bcond (Point p) L f; Bcond (Point q) M g] /\ in_shape f = [] /\ in_shape g = [] /\ out_shape f = out_shape g.
Proof.
  intros [|[[]L f] [|[[]M g] [|]]] o; cbn; try discriminate. unfold call_at.
  destruct (point_float p) as [x0|]; cbn [bind]; [|discriminate]. destruct (point_float p0) as [x1|]; cbn [bind]; [|discriminate].
  destruct (shape_eqb_spec (in_shape f) []); cbn [bind]; [|discriminate]. destruct (shape_eqb_spec (in_shape g) []); cbn [bind]; [|discriminate].
  destruct (shape_eqb_spec (out_shape f) (out_shape g)); [|discriminate]. intros _. exists p, p0, L, M, f, g. auto.
Qed.
Example C49_nonvacuous : exists p c q,
  linear_pde (DLDomain (Interval F64 0 1)) (OId [] []) None = Ok p /\ dirichlet (Point (mkarray F64 [] [0])) (VArr [] (fun _ => 1)) = Ok c /\
  mk_bvp p [c] None = Ok q.
Proof. do 3 eexists. split; [reflexivity|]. split; [reflexivity|reflexivity]. Qed.
(** The Poisson problem pairs boundary parts and given values with [zip]: missing values drop
    boundary conditions without an error. *)
Theorem C49_poisson_drops_conditions_refuted : exists d v q parts, boundary d = Ok parts /\ length parts = 4%nat /\
  poisson_problem (DLDomain d) None 1 (BVArr [1%nat] v) None = Ok q /\ length (bvp_bcs q) = 1%nat.
Proof.
  assert (N : Reqb 0 1 = false) by (unfold Reqb; destruct (Req_EM_T 0 1); [lra|reflexivity]).
  exists (Box F64 [(0, 1); (0, 1)]), (fun _ => 0).
  eexists; eexists. split.
  { unfold boundary, box_factors, box_factor. cbn [map fst snd]. rewrite N. cbn. reflexivity. }
  split; [reflexivity|]. unfold poisson_problem. rewrite (poisson_equation_ok _ (Box F64 [(0, 1); (0, 1)])) by (reflexivity || exact I).
  cbn [bind pde_domain]. change (shape_eqb (dshape (Box F64 [(0, 1); (0, 1)])) []) with false. cbn [bind].
  unfold poisson_conditions. unfold boundary, box_factors, box_factor. cbn [map fst snd]. rewrite N.
  split; [cbn; reflexivity|reflexivity].
Qed.

(** * C46: the one-dimensional Poisson problem with constant right-hand side *)
(** The constant value of the right-hand side and the two boundary values. *)
Definition rhs_constant (rhs : option fn) (c : R) : Prop :=
  match rhs with
  | None => c = 0
  | Some f => (exists v, f = FConst [] [] v /\ v [] = c) \/ (f = FZero [] [] /\ c = 0)
  end.
Definition end_values (bv : bvals) (l r gl gr : R) : Prop :=
  match bv with
  | BVNone => gl = 0 /\ gr = 0
  | BVFn f => in_shape f = [] /\ out_shape f = [] /\ gl = feval f (pt0 l) [] /\ gr = feval f (pt0 r) []
  | BVArr sh v => sh = [2%nat] /\ gl = v [0%nat] /\ gr = v [1%nat]
  end.
(** The problem as the user sees it: conditions at the two ends with the given values. *)
Definition end_conditions (bcs : list bcond) (dt : dtype) (l r gl gr : R) : Prop :=
  exists f g, bcs = [Bcond (Point (mkarray dt [] [l])) (OId [] []) f; Bcond (Point (mkarray dt [] [r])) (OId [] []) g] /\
    in_shape f = [] /\ out_shape f = [] /\ in_shape g = [] /\ out_shape g = [] /\ (forall x, feval f x [] = gl) /\ (forall x, feval g x [] = gr).

Lemma mapM_two {A B} (f : A -> result B) a b x y : f a = Ok x -> f b = Ok y -> mapM f [a; b] = Ok [x; y].
Proof. intros H1 H2. cbn. now rewrite H1, H2. Qed.
Lemma end_array' bv l r gl gr : end_values bv l r gl gr ->
  exists v, v [0%nat] = gl /\ v [1%nat] = gr /\
    match (match bv with BVNone => BVFn (FZero [] []) | _ => bv end) with
    | BVFn f => endpoint_values l r f
    | _ => Ok (match bv with BVNone => BVFn (FZero [] []) | _ => bv end)
    end = Ok (BVArr [2%nat] v).
Proof.
  destruct bv as [|f|sh v]; cbn [end_values].
  - intros [-> ->]. eexists. split; [|split; [|reflexivity]]; reflexivity.
  - intros (Hi & Ho & -> & ->). unfold endpoint_values, call_at. rewrite Hi, Ho. cbn [shape_eqb]. rewrite shape_eqb_refl. cbn [bind].
    eexists. split; [|split; [|reflexivity]]; reflexivity.
  - intros (-> & -> & ->). exists v. auto.
Qed.
Lemma two_conditions dt l r (v : arr) : is_floating dt = true ->
  exists bcs, poisson_conditions (Interval dt l r) (BVArr [2%nat] v) = Ok bcs /\ end_conditions bcs dt l r (v [0%nat]) (v [1%nat]).
Proof.
  intros Hd. unfold poisson_conditions. rewrite interval_boundary by exact Hd. cbn [bind rows seq map combine].
  eexists. split.
  { cbn. reflexivity. }
  do 2 eexists. split; [reflexivity|]. repeat split; reflexivity.
Qed.

Theorem C46_solution : forall dom dt l r rhs c bv gl gr alpha, asdomain dom = Ok (Interval dt l r) -> is_floating dt = true -> l < r -> alpha <> 0 ->
  rhs_constant rhs c -> end_values bv l r gl gr ->
  exists q s u v, poisson_problem dom rhs alpha bv None = Ok q /\ bvp_solution q = Some s /\
    (forall x, feval s x [] = u (x [])) /\ (forall t, is_derive u t (v t)) /\ (forall t, is_derive v t (c / - alpha)) /\ u l = gl /\ u r = gr /\
    (forall x, osem (pde_op (bvp_pde q)) (feval s) x [] = feval (pde_rhs (bvp_pde q)) x []) /\ (forall x, feval (pde_rhs (bvp_pde q)) x [] = c) /\
    pde_domain (bvp_pde q) = Interval dt l r /\ end_conditions (bvp_bcs q) dt l r gl gr.
Proof.
  intros dom dt l r rhs c bv gl gr alpha D Fl Hlr Ha Hr Hb.
  destruct (end_array' _ _ _ _ _ Hb) as (v & Ev0 & Ev1 & Eb).
  destruct (two_conditions dt l r v Fl) as (bcs & Hbcs & Ec). rewrite Ev0, Ev1 in Ec.
  destruct (quad_ok l r gl gr c alpha Hlr Ha) as (D1 & D2 & U0 & U1).
  set (u := quad l r gl gr c alpha) in *. set (s := FOther [] [] (fun x _ => u (x []))).
  set (f := match rhs with Some f => f | None => FZero [] [] end).
  assert (Hf : in_shape f = [] /\ out_shape f = [] /\ constant_value f = Some c /\ forall x, feval f x [] = c).
  { unfold f. destruct rhs as [g|]; cbn [rhs_constant] in Hr; [|subst c; auto].
    destruct Hr as [(w & -> & <-)|[-> ->]]; auto. }
  destruct Hf as (Hf1 & Hf2 & Hf3 & Hf4).
  exists (Bvp (Pde (Interval dt l r) (o_scale (- alpha) (ODiff (DLap true [] (fun _ => 1)))) f) bcs (Some s)), s, u, (quad' l r gl gr c alpha).
  split.
  { unfold poisson_problem. rewrite (poisson_equation_ok _ (Interval dt l r)) by (try exact D; destruct rhs; auto).
    cbn [bind pde_domain pde_rhs dshape]. change (shape_eqb [] []) with true. cbn iota. fold f.
    change (snd (o_in (pde_op _))) with (@nil nat). rewrite Eb. cbn [bind]. unfold attached_solution. rewrite Hf3.
    rewrite (poisson_constant_ok _ dt l r) by (reflexivity || assumption). cbn [bind]. rewrite Ev0, Ev1. rewrite Hbcs. cbn [bind].
    apply C49_bvp. split; [reflexivity|]. split; [|split; reflexivity]. destruct Ec as (g & h & -> & _). intros b [<-|[<-|[]]]; reflexivity. }
  cbn [bvp_solution bvp_pde bvp_bcs pde_op pde_rhs pde_domain]. split; [reflexivity|]. split; [reflexivity|]. split; [exact D1|]. split; [exact D2|].
  split; [exact U0|]. split; [exact U1|]. split; [|split; [exact Hf4|split; [reflexivity|exact Ec]]].
  intros x. rewrite Hf4. rewrite (laplace_1d alpha true u (quad' l r gl gr c alpha) (feval s) x (c / - alpha)); [field; lra|reflexivity|exact D1|apply D2].
Qed.
Example C46_nonvacuous : asdomain (DLSeq [scalar (-1); scalar 2]) = Ok (Interval F64 (-1) 2) /\
  rhs_constant (Some (FConst [] [] (fun _ => 3))) 3 /\ end_values (BVArr [2%nat] (fun k => match k with [0%nat] => 5 | _ => 7 end)) (-1) 2 5 7.
Proof. split; [apply scalar_interval; lra|]. split; [left; eexists; split; reflexivity|cbn; auto]. Qed.

(** With other right-hand sides no solution is attached; a solution passed by the user is kept. *)
Theorem C46_no_solution : forall dom dt l r f bv gl gr alpha, asdomain dom = Ok (Interval dt l r) -> is_floating dt = true ->
  in_shape f = [] -> out_shape f = [] -> (forall i o v, f <> FConst i o v) -> (forall i o, f <> FZero i o) -> end_values bv l r gl gr ->
  exists q, poisson_problem dom (Some f) alpha bv None = Ok q /\ bvp_solution q = None /\ pde_rhs (bvp_pde q) = f /\ end_conditions (bvp_bcs q) dt l r gl gr.
Proof.
  intros dom dt l r f bv gl gr alpha D Fl Hi Ho N1 N2 Hb.
  destruct (end_array' _ _ _ _ _ Hb) as (v & Ev0 & Ev1 & Eb).
  destruct (two_conditions dt l r v Fl) as (bcs & Hbcs & Ec). rewrite Ev0, Ev1 in Ec.
  exists (Bvp (Pde (Interval dt l r) (o_scale (- alpha) (ODiff (DLap true [] (fun _ => 1)))) f) bcs None). split; [|auto].
  unfold poisson_problem. rewrite (poisson_equation_ok _ (Interval dt l r)) by auto.
  cbn [bind pde_domain pde_rhs dshape]. change (shape_eqb [] []) with true. cbn iota.
  change (snd (o_in (pde_op _))) with (@nil nat). rewrite Eb. cbn [bind]. unfold attached_solution.
  assert (Hc : constant_value f = None) by (destruct f; cbn; congruence). rewrite Hc. cbn [bind]. rewrite Hbcs. cbn [bind].
  apply C49_bvp. split; [reflexivity|]. split; [|exact I]. destruct Ec as (g & h & -> & _). intros b [<-|[<-|[]]]; reflexivity.
Qed.
Theorem C46_given_solution : forall dom dt l r rhs bv gl gr alpha s, asdomain dom = Ok (Interval dt l r) -> is_floating dt = true ->
  match rhs with Some f => in_shape f = [] /\ out_shape f = [] | None => True end -> end_values bv l r gl gr -> in_shape s = [] -> out_shape s = [] ->
  exists q, poisson_problem dom rhs alpha bv (Some s) = Ok q /\ bvp_solution q = Some s /\ end_conditions (bvp_bcs q) dt l r gl gr.
Proof.
  intros dom dt l r rhs bv gl gr alpha s D Fl Hf Hb Si So.
  destruct (end_array' _ _ _ _ _ Hb) as (v & Ev0 & Ev1 & Eb).
  destruct (two_conditions dt l r v Fl) as (bcs & Hbcs & Ec). rewrite Ev0, Ev1 in Ec.
  set (f := match rhs with Some f => f | None => FZero [] [] end).
  exists (Bvp (Pde (Interval dt l r) (o_scale (- alpha) (ODiff (DLap true [] (fun _ => 1)))) f) bcs (Some s)). split; [|auto].
  unfold poisson_problem. rewrite (poisson_equation_ok _ (Interval dt l r)) by (try exact D; destruct rhs; auto).
  cbn [bind pde_domain pde_rhs dshape]. change (shape_eqb [] []) with true. cbn iota. fold f.
  change (snd (o_in (pde_op _))) with (@nil nat). rewrite Eb. cbn [bind]. rewrite Hbcs. cbn [bind].
  apply C49_bvp. split; [reflexivity|]. split; [|auto]. destruct Ec as (g & h & -> & _). intros b [<-|[<-|[]]]; reflexivity.
Qed.
Theorem C46_errors : forall dom dt l r c ul ur, asdomain dom = Ok (Interval dt l r) -> poisson_constant dom c ul ur 0 = Err ZeroDivisionError.
Proof. intros dom dt l r c ul ur D. unfold poisson_constant. rewrite D. cbn [bind]. unfold Reqb. destruct (Req_EM_T 0 0); [reflexivity|lra]. Qed.
Theorem C46_interval_only : forall d rhs ul ur alpha, (forall dt l r, d <> Interval dt l r) -> poisson_constant (DLDomain d) rhs ul ur alpha = Err TypeError.
Proof. intros d rhs ul ur alpha H. unfold poisson_constant. cbn [asdomain bind]. destruct d; [exfalso; eapply H; reflexivity|reflexivity..]. Qed.
(** On a general domain with a boundary function every boundary part gets that function. *)
Theorem C46_boundary_function : forall d f alpha parts, boundary d = Ok parts -> dshape d <> [] -> in_shape f = dshape d ->
  (forall b, In b parts -> dshape b = dshape d) ->
  exists q, poisson_problem (DLDomain d) None alpha (BVFn f) None = Ok q /\ bvp_solution q = None /\
    bvp_bcs q = map (fun b => Bcond b (OId (dshape d) (out_shape f)) f) parts.
Proof.
  intros d f alpha parts Hb Hs Hi Hp. exists (Bvp (Pde d (o_scale (- alpha) (ODiff (DLap true (dshape d) (fun _ => 1)))) (FZero (dshape d) []))
    (map (fun b => Bcond b (OId (dshape d) (out_shape f)) f) parts) None). split; [|auto].
  unfold poisson_problem. rewrite (poisson_equation_ok _ d) by (reflexivity || exact I). cbn [bind pde_domain].
  destruct (shape_eqb_spec (dshape d) []); [contradiction|]. cbn [bind]. unfold poisson_conditions. rewrite Hb. cbn [bind].
  assert (M : mapM (fun part => dirichlet part (VFn f)) parts = Ok (map (fun b => Bcond b (OId (dshape d) (out_shape f)) f) parts)).
  { clear Hb. induction parts as [|b parts IH]; [reflexivity|]. cbn [mapM map].
    assert (E : dirichlet b (VFn f) = Ok (Bcond b (OId (dshape d) (out_shape f)) f)).
    { apply C49_dirichlet. rewrite (Hp b) by now left. auto. }
    rewrite E. cbn [bind]. rewrite IH by (intros; apply Hp; now right). reflexivity. }
  rewrite M. cbn [bind]. apply C49_bvp. split; [reflexivity|]. split; [|exact I]. intros b Hin. apply in_map_iff in Hin. destruct Hin as (b' & <- & Hb'). cbn. now apply Hp.
Qed.

(** * C47: initial value problems *)
(** The polynomial solution satisfies [-alpha u'' = rhs] everywhere and both initial values. *)
Theorem C47_polynomial : forall dom dt l r rhs iv0 iv1 alpha, asdomain dom = Ok (Interval dt l r) -> py_valid rhs -> alpha <> 0 ->
  exists u v, poisson_ivp dom rhs iv0 iv1 alpha = Ok u /\ (forall x, is_derive (py_eval u) x (v x)) /\
    (forall x, is_derive v x (- py_eval rhs x / alpha)) /\ py_eval u l = iv0 /\ v l = iv1.
Proof.
  intros dom dt l r rhs iv0 iv1 alpha D V Ha. destruct (poisson_ivp_ok dom dt l r rhs iv0 iv1 alpha D V Ha) as (u & Hu & _ & [S1 S2] & U0 & U1).
  exists u, (py_eval (py_diff u)). auto.
Qed.
(** Any other solution of the initial value problem has the same values. *)
Theorem C47_unique : forall dom dt l r rhs iv0 iv1 alpha u (w w' : R -> R), asdomain dom = Ok (Interval dt l r) -> py_valid rhs -> alpha <> 0 ->
  poisson_ivp dom rhs iv0 iv1 alpha = Ok u -> (forall x, is_derive w x (w' x)) -> (forall x, is_derive w' x (- py_eval rhs x / alpha)) ->
  w l = iv0 -> w' l = iv1 -> forall x, w x = py_eval u x.
Proof.
  intros dom dt l r rhs iv0 iv1 alpha u w w' D V Ha Hu W1 W2 W0 W0'.
  destruct (C47_polynomial dom dt l r rhs iv0 iv1 alpha D V Ha) as (u' & v & Hu' & S1 & S2 & U0 & U1).
  rewrite Hu in Hu'. injection Hu' as <-.
  assert (Z : forall f : R -> R, (forall x, is_derive f x 0) -> forall x, f x = f l).
  { intros f Hf x. destruct (MVT_gen f l x (fun _ => 0)) as (c & _ & E); [intros; apply Hf|intros y _; apply derivable_continuous_pt; exists 0; apply is_derive_Reals, Hf|lra]. }
  assert (E1 : forall x, w' x - v x = 0).
  { intros x. rewrite (Z (fun x => w' x - v x)); [lra|]. intros y. replace 0 with (- py_eval rhs y / alpha - - py_eval rhs y / alpha) by ring. apply @is_derive_minus; auto. }
  intros x. enough (w x - py_eval u x = 0) by lra. rewrite (Z (fun x => w x - py_eval u x)); [lra|]. intros y.
  replace 0 with (w' y - v y) by apply E1. apply @is_derive_minus; auto.
Qed.
(** The piecewise solution is continuously differentiable across the knots, satisfies the
    equation inside every piece and both initial values at the first knot. *)
Theorem C47_piecewise : forall dom dt l r xs ps iv0 iv1 alpha, asdomain dom = Ok (Interval dt l r) -> alpha <> 0 -> List.Forall py_valid ps -> ps <> [] ->
  length xs = S (length ps) -> increasing xs ->
  exists f V, poisson_ivp_piecewise dom (mkpw KPiecewise xs (map PcPoly ps)) iv0 iv1 alpha = Ok f /\ pw_xs f = xs /\
    (forall i x, (i < length ps)%nat -> nth i xs 0 < x < nth (S i) xs 0 ->
       is_derive V x (- pw_value (mkpw KPiecewise xs (map PcPoly ps)) x / alpha)) /\
    (forall x, nth 0 xs 0 < x < nth (length ps) xs 0 -> is_derive (pw_value f) x (V x) /\ continuous V x) /\
    pw_value f (nth 0 xs 0) = iv0 /\ V (nth 0 xs 0) = iv1 /\
    (exists u, (forall x, is_derive (py_eval u) x (py_eval (py_diff u) x)) /\
       forall x, nth 0 xs 0 <= x <= nth 1 xs 0 -> pw_value f x = py_eval u x /\ V x = py_eval (py_diff u) x).
Proof. exact piecewise_ivp_ok. Qed.
Example C47_nonvacuous : exists xs ps, List.Forall py_valid ps /\ ps <> [] /\ length xs = S (length ps) /\ increasing xs /\ length ps = 2%nat.
Proof.
  exists [0; 1; 3], [make_float [1]; make_float [2; 1]]. repeat split; try discriminate; try reflexivity.
  - repeat constructor; discriminate.
  - intros [|[|[|i]]] [|[|[|j]]] H; cbn in *; try lra; try lia.
Qed.
Theorem C47_errors : forall dom dt l r rhs prhs iv0 iv1, asdomain dom = Ok (Interval dt l r) ->
  poisson_ivp dom rhs iv0 iv1 0 = Err ZeroDivisionError /\
  (forall xs k fs g fs', (forall p, g <> PcPoly p) -> prhs = mkpw k xs (map PcPoly fs ++ g :: fs') -> forall alpha,
     poisson_ivp_piecewise dom prhs iv0 iv1 alpha = Err TypeError).
Proof.
  intros dom dt l r rhs prhs iv0 iv1 D. split.
  - unfold poisson_ivp. rewrite D. cbn [bind]. unfold Reqb. destruct (Req_EM_T 0 0); [reflexivity|lra].
  - intros xs k fs g fs' Hg -> alpha. unfold poisson_ivp_piecewise. rewrite D. cbn [bind pw_fns].
    assert (E : poly_pieces (map PcPoly fs ++ g :: fs') = Err TypeError).
    { induction fs as [|p fs IH]; [destruct g; try reflexivity; exfalso; now eapply Hg|]. cbn. now rewrite IH. }
    now rewrite E.
Qed.
Theorem C47_interval_only : forall d rhs prhs iv0 iv1 alpha, (forall dt l r, d <> Interval dt l r) ->
  poisson_ivp (DLDomain d) rhs iv0 iv1 alpha = Err TypeError /\ poisson_ivp_piecewise (DLDomain d) prhs iv0 iv1 alpha = Err TypeError.
Proof. intros d rhs prhs iv0 iv1 alpha H. unfold poisson_ivp, poisson_ivp_piecewise. cbn [asdomain bind]. destruct d; try (split; reflexivity). exfalso. eapply H. reflexivity. Qed.

(** * C48: the heat equation *)
(** A truncated sine series. *)
Theorem C48_series : forall l r cs x, feval (sine_series l r cs) x [] =
  total (map (fun k => nth k cs 0 * sin (PI * INR (S k) / (r - l) * (x [] - l))) (seq 0 (length cs))).
Proof. intros. cbn [sine_series feval]. apply sine_terms. Qed.
Theorem C48_series_ends : forall l r cs x, l < r -> x [] = l \/ x [] = r -> feval (sine_series l r cs) x [] = 0.
Proof.
  intros l r cs x H [E|E]; cbn [sine_series feval]; rewrite E, <- (heat_init_value 0 l r 0); [apply heat_left|now apply heat_right].
Qed.
(** Conditions for a problem on [t0, T] times [l, r]: zero values at both ends of the
    interval for all times. *)
Definition heat_conditions (bcs : list bcond) (t0 T l r : R) : Prop :=
  exists f g, bcs = [Bcond (Prod F64 [Interval F64 t0 T; Point (mkarray F64 [] [l])]) (OId [2%nat] []) f;
                     Bcond (Prod F64 [Interval F64 t0 T; Point (mkarray F64 [] [r])]) (OId [2%nat] []) g] /\
    in_shape f = [2%nat] /\ in_shape g = [2%nat] /\ (forall x, feval f x [] = 0) /\ forall x, feval g x [] = 0.

Lemma heat_setup t0 T l r alpha L rhs iv sol : t0 <= T -> heat_op [2%nat] alpha = Ok L ->
  match rhs with Some f => in_shape f = [2%nat] /\ out_shape f = [] | None => True end -> in_shape (init_fn (Interval F64 l r) iv) = [] ->
  let d := Prod F64 [Interval F64 t0 T; Interval F64 l r] in
  exists bcs, heat_conditions bcs t0 T l r /\
    heat_problem t0 T (Interval F64 l r) rhs alpha iv sol =
    mk_ibvp (Pde d L (match rhs with Some f => f | None => FZero [2%nat] [] end))
      (Bcond (Interval F64 l r) (OId [] (out_shape (init_fn (Interval F64 l r) iv))) (init_fn (Interval F64 l r) iv)) bcs
      (match sol with Some _ => sol | None => heat_attached d (Interval F64 l r) t0 alpha iv end).
Proof.
  intros Ht HL Hr Hi d. eexists. split.
  2: { unfold heat_problem, mk_interval. destruct (Rltb_spec T t0) as [C|C]; [exfalso; clear - Ht C; lra|]. cbn [is_floating bind].
    change (mk_prod [Interval F64 t0 T; Interval F64 l r]) with (@Ok domain d). cbn [bind]. unfold heat_equation. change (dshape d) with [2%nat]. rewrite HL. cbn [bind].
    destruct (heat_op_2 alpha) as (a & Ha & ->). rewrite Ha in HL. injection HL as <-.
    assert (E : linear_pde (DLDomain d) (OSum [ODiff (DPartial (MI [2%nat] [1%nat; 0%nat])); ODiff (DLap false [2%nat] (fun i => if shape_eqb i [0%nat] then 0 else - alpha))]) rhs
      = Ok (Pde d (OSum [ODiff (DPartial (MI [2%nat] [1%nat; 0%nat])); ODiff (DLap false [2%nat] (fun i => if shape_eqb i [0%nat] then 0 else - alpha))])
              (match rhs with Some f => f | None => FZero [2%nat] [] end))).
    { apply C49_pde. split; [destruct rhs; reflexivity|]. split; [reflexivity|]. split; [reflexivity|]. destruct rhs; [exact Hr|exact I]. }
    rewrite E. cbn [bind]. rewrite Hi. change (shape_eqb [] (dshape (Interval F64 l r))) with true. cbn [negb andb].
    rewrite (proj2 (C49_dirichlet (Interval F64 l r) (VFn (init_fn (Interval F64 l r) iv)) _) (conj Hi eq_refl)). cbn [bind].
    rewrite interval_boundary by reflexivity. cbn [bind].
    rewrite (mapM_two _ _ _ (Bcond (Prod F64 [Interval F64 t0 T; Point (mkarray F64 [] [l])]) (OId [2%nat] []) (FConst [2%nat] [] (fun _ => 0)))
      (Bcond (Prod F64 [Interval F64 t0 T; Point (mkarray F64 [] [r])]) (OId [2%nat] []) (FConst [2%nat] [] (fun _ => 0)))) by reflexivity.
    cbn [bind]. reflexivity. }
  do 2 eexists. split; [reflexivity|]. repeat split; reflexivity.
Qed.
Lemma heat_ibvp t0 T l r alpha L f iv0 bcs sol : heat_conditions bcs t0 T l r -> heat_op [2%nat] alpha = Ok L ->
  match sol with Some s => in_shape s = [2%nat] /\ out_shape s = [] | None => True end ->
  let p := Pde (Prod F64 [Interval F64 t0 T; Interval F64 l r]) L f in let ic := Bcond (Interval F64 l r) (OId [] (out_shape iv0)) iv0 in
  mk_ibvp p ic bcs sol = Ok (Bvp p bcs sol, ic).
Proof.
  intros Hb HL Hs p ic. apply C49_ibvp. split.
  - exists F64, t0, T, (Interval F64 l r). split; [reflexivity|]. cbn. unfold Reqb. destruct (Req_EM_T l l); [|lra]. destruct (Req_EM_T r r); [reflexivity|lra].
  - eexists. split; [|reflexivity]. apply C49_bvp. split; [reflexivity|]. split.
    + destruct Hb as (g & h & -> & _). intros b [<-|[<-|[]]]; reflexivity.
    + destruct (heat_op_2 alpha) as (a & Ha & ->). rewrite Ha in HL. injection HL as <-. destruct sol; [exact Hs|exact I].
Qed.
(** Without source term and with a sine series as initial values, the attached solution
    satisfies [u_t - alpha u_xx = 0], the initial values and the zero boundary values. *)
Theorem C48_solution : forall t0 T l r alpha cs, t0 <= T -> l < r ->
  exists q ic s u ut ux uxx, heat_problem t0 T (Interval F64 l r) None alpha (HSine l r cs) None = Ok (q, ic) /\ bvp_solution q = Some s /\
    (forall y, feval s y [] = u (y [0%nat]) (y [1%nat])) /\
    (forall t x, is_derive (fun z => u z x) t (ut t x)) /\ (forall t x, is_derive (fun z => u t z) x (ux t x)) /\
    (forall t x, is_derive (fun z => ux t z) x (uxx t x)) /\ (forall t x, ut t x = alpha * uxx t x) /\
    (forall x, u t0 x = feval (sine_series l r cs) (pt0 x) []) /\ (forall t, u t l = 0 /\ u t r = 0) /\
    (forall y, osem (pde_op (bvp_pde q)) (feval s) y [] = 0 /\ feval (pde_rhs (bvp_pde q)) y [] = 0) /\
    pde_domain (bvp_pde q) = Prod F64 [Interval F64 t0 T; Interval F64 l r] /\ heat_conditions (bvp_bcs q) t0 T l r /\
    bc_boundary ic = Interval F64 l r /\ bc_op ic = OId [] [] /\ bc_values ic = sine_series l r cs.
Proof.
  intros t0 T l r alpha cs Ht Hlr. destruct (heat_op_2 alpha) as (a & HL & _).
  set (L := OSum _) in HL. destruct (heat_setup t0 T l r alpha L None (HSine l r cs) None Ht HL I eq_refl) as (bcs & Hb & E).
  set (s := heat_solution t0 l r alpha cs).
  assert (Es : heat_attached (Prod F64 [Interval F64 t0 T; Interval F64 l r]) (Interval F64 l r) t0 alpha (HSine l r cs) = Some s).
  { cbn. unfold Reqb. destruct (Req_EM_T l l); [|lra]. destruct (Req_EM_T r r); [reflexivity|lra]. }
  rewrite Es in E. rewrite (heat_ibvp t0 T l r alpha L _ _ bcs (Some s) Hb HL (conj eq_refl eq_refl)) in E.
  do 2 eexists. exists s, (heat_eval t0 l r alpha cs), (fun t x => alpha * heat_xx t0 l r alpha cs t x), (heat_x t0 l r alpha cs), (heat_xx t0 l r alpha cs).
  split; [exact E|]. cbn [bvp_solution bvp_pde bvp_bcs pde_op pde_rhs pde_domain bc_boundary bc_op bc_values].
  split; [reflexivity|]. split; [reflexivity|].
  split; [intros; apply heat_dt|]. split; [intros; apply heat_dx|]. split; [intros; apply heat_dxx|]. split; [reflexivity|].
  split; [intros; apply heat_init_value|]. split; [intros t; split; [apply heat_left|now apply heat_right]|].
  split; [|split; [reflexivity|split; [exact Hb|split; [reflexivity|split; reflexivity]]]].
  intros y. split; [|reflexivity].
  rewrite (heat_op_sem alpha L (heat_eval t0 l r alpha cs) (fun t x => alpha * heat_xx t0 l r alpha cs t x) (heat_x t0 l r alpha cs) (heat_xx t0 l r alpha cs) (feval s) y HL);
    [ring|reflexivity|intros; apply heat_dt|intros; apply heat_dx|intros; apply heat_dxx].
Qed.
(** Zero initial values (also the default) give the zero solution. *)
Theorem C48_zero : forall t0 T l r alpha iv, t0 <= T -> iv = HNone \/ iv = HFn (FZero [] []) ->
  exists q ic s, heat_problem t0 T (Interval F64 l r) None alpha iv None = Ok (q, ic) /\ bvp_solution q = Some s /\ in_shape s = [2%nat] /\
    (forall y k, feval s y k = 0) /\ heat_conditions (bvp_bcs q) t0 T l r /\ (forall x, feval (bc_values ic) x [] = 0).
Proof.
  intros t0 T l r alpha iv Ht Hiv. destruct (heat_op_2 alpha) as (a & HL & _). set (L := OSum _) in HL.
  assert (Hi : init_fn (Interval F64 l r) iv = FZero [] []) by (destruct Hiv as [->| ->]; reflexivity).
  destruct (heat_setup t0 T l r alpha L None iv None Ht HL I) as (bcs & Hb & E); [now rewrite Hi|].
  assert (Es : heat_attached (Prod F64 [Interval F64 t0 T; Interval F64 l r]) (Interval F64 l r) t0 alpha iv = Some (FZero [2%nat] []))
    by (destruct Hiv as [->| ->]; reflexivity).
  rewrite Es, Hi in E. rewrite (heat_ibvp t0 T l r alpha L _ _ bcs (Some (FZero [2%nat] [])) Hb HL (conj eq_refl eq_refl)) in E.
  do 2 eexists. exists (FZero [2%nat] []). split; [exact E|]. cbn [bvp_solution bvp_bcs bc_values]. repeat split; try reflexivity. exact Hb.
Qed.
(** No solution is attached for other initial values, in particular for a sine series of
    another interval; a given solution is kept. *)
Theorem C48_other : forall t0 T l r alpha iv, t0 <= T ->
  (exists f, iv = HFn f /\ in_shape f = [] /\ out_shape f = [] /\ (forall i o, f <> FZero i o)) \/
  (exists l' r' cs, iv = HSine l' r' cs /\ (l' <> l \/ r' <> r)) ->
  exists q ic, heat_problem t0 T (Interval F64 l r) None alpha iv None = Ok (q, ic) /\ bvp_solution q = None /\ heat_conditions (bvp_bcs q) t0 T l r.
Proof.
  intros t0 T l r alpha iv Ht Hiv. destruct (heat_op_2 alpha) as (a & HL & _). set (L := OSum _) in HL.
  destruct (heat_setup t0 T l r alpha L None iv None Ht HL I) as (bcs & Hb & E); [destruct Hiv as [(f & -> & H & _)|(l' & r' & cs & -> & _)]; [exact H|reflexivity]|].
  assert (Es : heat_attached (Prod F64 [Interval F64 t0 T; Interval F64 l r]) (Interval F64 l r) t0 alpha iv = None).
  { destruct Hiv as [(f & -> & _ & _ & N)|(l' & r' & cs & -> & N)]; cbn.
    - destruct f; try reflexivity. exfalso. eapply N. reflexivity.
    - unfold Reqb. destruct (Req_EM_T l' l), (Req_EM_T r' r); try reflexivity. tauto. }
  rewrite Es in E. rewrite (heat_ibvp t0 T l r alpha L _ _ bcs None Hb HL I) in E.
  do 2 eexists. split; [exact E|]. split; [reflexivity|exact Hb].
Qed.
Theorem C48_given_solution : forall t0 T l r alpha rhs iv s, t0 <= T -> in_shape (init_fn (Interval F64 l r) iv) = [] ->
  match rhs with Some f => in_shape f = [2%nat] /\ out_shape f = [] | None => True end -> in_shape s = [2%nat] -> out_shape s = [] ->
  exists q ic, heat_problem t0 T (Interval F64 l r) rhs alpha iv (Some s) = Ok (q, ic) /\ bvp_solution q = Some s /\
    pde_rhs (bvp_pde q) = match rhs with Some f => f | None => FZero [2%nat] [] end.
Proof.
  intros t0 T l r alpha rhs iv s Ht Hi Hr S1 S2. destruct (heat_op_2 alpha) as (a & HL & _). set (L := OSum _) in HL.
  destruct (heat_setup t0 T l r alpha L rhs iv (Some s) Ht HL Hr Hi) as (bcs & Hb & E).
  rewrite (heat_ibvp t0 T l r alpha L _ _ bcs (Some s) Hb HL (conj S1 S2)) in E.
  do 2 eexists. split; [exact E|]. split; reflexivity.
Qed.
Theorem C48_time_order : forall t0 T sp rhs alpha iv sol, T < t0 -> heat_problem t0 T sp rhs alpha iv sol = Err ValueError.
Proof. intros. unfold heat_problem, mk_interval. destruct (Rltb_spec T t0); [reflexivity|lra]. Qed.
(** A source term is accepted, but the attached solution ignores it. *)
Theorem C48_source_ignored_refuted : exists rhs q ic s, heat_problem 0 1 (Interval F64 0 1) (Some rhs) 1 HNone None = Ok (q, ic) /\
  bvp_solution q = Some s /\ exists y, osem (pde_op (bvp_pde q)) (feval s) y [] <> feval (pde_rhs (bvp_pde q)) y [].
Proof.
  exists (FConst [2%nat] [] (fun _ => 1)). destruct (heat_op_2 1) as (a & HL & _). set (L := OSum _) in HL.
  destruct (heat_setup 0 1 0 1 1 L (Some (FConst [2%nat] [] (fun _ => 1))) HNone None) as (bcs & Hb & E); [lra|exact HL|split; reflexivity|reflexivity|].
  change (heat_attached _ _ _ _ _) with (Some (FZero [2%nat] [])) in E.
  rewrite (heat_ibvp 0 1 0 1 1 L _ _ bcs (Some (FZero [2%nat] [])) Hb HL (conj eq_refl eq_refl)) in E.
  do 3 eexists. split; [exact E|]. split; [reflexivity|]. exists (fun _ => 0). cbn [bvp_pde pde_op pde_rhs].
  rewrite (heat_op_sem 1 L (fun _ _ => 0) (fun _ _ => 0) (fun _ _ => 0) (fun _ _ => 0) (feval (FZero [2%nat] [])) (fun _ => 0) HL);
    [cbn; lra|reflexivity|intros; apply @is_derive_const..].
Qed.
(** Initial values with outputs of the wrong shape are accepted. *)
Theorem C48_vector_initial_values_refuted : exists f q ic, out_shape f = [3%nat] /\
  heat_problem 0 1 (Interval F64 0 1) None 1 (HFn f) None = Ok (q, ic) /\ bc_values ic = f /\ snd (o_in (pde_op (bvp_pde q))) = [].
Proof.
  set (f := FConst [] [3%nat] (fun _ => 1)). exists f. destruct (heat_op_2 1) as (a & HL & _). set (L := OSum _) in HL.
  destruct (heat_setup 0 1 0 1 1 L None (HFn f) None) as (bcs & Hb & E); [lra|exact HL|exact I|reflexivity|].
  change (heat_attached _ _ _ _ _) with (@None fn) in E. rewrite (heat_ibvp 0 1 0 1 1 L _ _ bcs None Hb HL I) in E.
  do 2 eexists. split; [reflexivity|]. split; [exact E|]. split; reflexivity.
Qed.
(** Initial values on the wrong space are refused. *)
Theorem C48_initial_space : forall t0 T l r rhs alpha f sol, in_shape f <> [] -> t0 <= T ->
  match rhs with Some f => in_shape f = [2%nat] /\ out_shape f = [] | None => True end ->
  heat_problem t0 T (Interval F64 l r) rhs alpha (HFn f) sol = Err ValueError.
Proof.
  intros t0 T l r rhs alpha f sol N Ht Hr. unfold heat_problem, mk_interval. destruct (Rltb_spec T t0); [lra|]. cbn [is_floating bind].
  change (mk_prod [Interval F64 t0 T; Interval F64 l r]) with (@Ok domain (Prod F64 [Interval F64 t0 T; Interval F64 l r])). cbn [bind]. unfold heat_equation.
  change (dshape (Prod F64 _)) with [2%nat]. destruct (heat_op_2 alpha) as (a & HL & _). rewrite HL. cbn [bind].
  rewrite (proj2 (C49_pde _ _ _ (Pde (Prod F64 [Interval F64 t0 T; Interval F64 l r]) (OSum [ODiff (DPartial a); ODiff (DLap false [2%nat] (fun i => if shape_eqb i [0%nat] then 0 else - alpha))]) (match rhs with Some f => f | None => FZero [2%nat] [] end)))).
  2: { split; [destruct rhs; reflexivity|]. destruct (heat_op_2 alpha) as (a' & HL' & ->). rewrite HL' in HL. injection HL as <-. split; [reflexivity|]. split; [reflexivity|]. destruct rhs; [exact Hr|exact I]. }
  cbn [bind init_fn]. destruct (_ && _); [reflexivity|]. destruct (dirichlet (Interval F64 l r) (VFn f)) as [c|e] eqn:E; cbn [bind].
  - apply C49_dirichlet in E. destruct E as [E _]. now destruct N.
  - f_equal. unfold dirichlet in E. eapply C49_condition_rejects. exact E.
Qed.
(** The operator is the time derivative minus [alpha] times the spatial second derivative. *)
Theorem C48_operator : forall alpha, exists L, heat_op [2%nat] alpha = Ok L /\
  forall (f ft fx fxx : R -> R -> R) (F : FunExprModel.array -> FunExprModel.array) x, (forall y, F y [] = f (y [0%nat]) (y [1%nat])) ->
  (forall t s, is_derive (fun u => f u s) t (ft t s)) -> (forall t s, is_derive (fun u => f t u) s (fx t s)) -> (forall t s, is_derive (fun u => fx t u) s (fxx t s)) ->
  osem L F x [] = ft (x [0%nat]) (x [1%nat]) - alpha * fxx (x [0%nat]) (x [1%nat]).
Proof.
  intros alpha. destruct (heat_op_2 alpha) as (a & HL & _). eexists. split; [exact HL|]. intros f ft fx fxx F x E D1 D2 D3.
  now apply (heat_op_sem alpha _ f ft fx fxx F x HL).
Qed.

Print Assumptions C46_solution.
Print Assumptions C47_piecewise.
Print Assumptions C47_unique.
Print Assumptions C48_solution.
Print Assumptions C49_ibvp.
