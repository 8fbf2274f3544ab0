(** C76: integrals over boxes. *)
From Coq Require Import List Reals Bool Arith Lia Lra.
From Coquelicot Require Import Coquelicot.
From Verif Require Import Base NdArray NdData CrossModel PolyModel PolyClassModel PolyCalc FunExprModel FunExprProofs LfoModel LfoSpec FunctlModel FunctlSpec FunctlProofs BoxIntModel BoxIntSpec.
From Verif Require DomainModel DomainSpec DomainProps.
Import ListNotations.
Open Scope R_scope.

Lemma bint_const bs c : box_integral bs (fun _ => c) (c * DomainSpec.widths bs).
Proof.
  induction bs as [|[l u] bs IH]; cbn [box_integral]; [unfold DomainSpec.widths; cbn; ring|].
  exists (fun _ => c * DomainSpec.widths bs). split; [intros t _; exact IH|].
  change (DomainSpec.widths ((l, u) :: bs)) with ((u - l) * DomainSpec.widths bs). replace (c * ((u - l) * DomainSpec.widths bs)) with (c * DomainSpec.widths bs * (u - l)) by ring.
  apply is_RInt_cst.
Qed.
Lemma bint_ext bs : forall g g' v, (forall x, g x = g' x) -> box_integral bs g v -> box_integral bs g' v.
Proof.
  induction bs as [|[l u] bs IH]; cbn [box_integral]; intros g g' v E H; [now rewrite <- E|].
  destruct H as (h & Hh & I). exists h. split; [|exact I]. intros t Ht. apply (IH (fun x => g (t :: x))); [intros x; apply E|]. now apply Hh.
Qed.
Lemma bint_plus bs : forall g g' v v', box_integral bs g v -> box_integral bs g' v' -> box_integral bs (fun x => g x + g' x) (v + v').
Proof.
  induction bs as [|[l u] bs IH]; cbn [box_integral]; intros g g' v v' H H'; [now rewrite H, H'|].
  destruct H as (h & Hh & I), H' as (h' & Hh' & I'). exists (fun t => h t + h' t). split.
  - intros t Ht. apply IH; auto.
  - exact (is_RInt_plus h h' l u v v' I I').
Qed.
(** The integral is unique. *)
Lemma bint_unique bs : ordered bs -> forall g v v', box_integral bs g v -> box_integral bs g v' -> v = v'.
Proof.
  induction bs as [|[l u] bs IH]; cbn [box_integral]; intros O g v v' H H'; [congruence|].
  destruct H as (h & Hh & I), H' as (h' & Hh' & I'). assert (L := O l u (or_introl eq_refl)).
  assert (E : is_RInt h l u v').
  { apply (is_RInt_ext h'); [|exact I']. intros t Ht. rewrite Rmin_left, Rmax_right in Ht by exact L.
    assert (Ht' : l <= t <= u) by lra. apply (IH (fun a b Hin => O a b (or_intror Hin)) _ _ _ (Hh' t Ht') (Hh t Ht')). }
  rewrite <- (is_RInt_unique _ _ _ _ I). exact (is_RInt_unique _ _ _ _ E).
Qed.

(** The constructor accepts intervals and boxes only. *)
Theorem C76_domains : forall arg d,
  mk_integral arg = Ok d <-> DomainModel.asdomain arg = Ok d /\ ((exists dt l u, d = DomainModel.Interval dt l u) \/ exists dt bs, d = DomainModel.Box dt bs).
Proof.
  intros arg d. unfold mk_integral. destruct (DomainModel.asdomain arg) as [d'|e]; cbn [bind]; [|split; [discriminate|intros [H _]; discriminate H]].
  split.
  - destruct d' as [dt l u|p|dt bs|dt fs]; intros H; try discriminate H; injection H as <-; split; try reflexivity; [left|right]; eauto.
  - intros [[= ->] [(dt & l & u & ->)|(dt & bs & ->)]]; reflexivity.
Qed.
Theorem C76_other_domains : forall d, mk_integral (DomainModel.DLDomain d) = Err TypeError <->
  (exists p, d = DomainModel.Point p) \/ exists dt fs, d = DomainModel.Prod dt fs.
Proof.
  intros [dt l u|p|dt bs|dt fs]; cbn; split; intros H; try discriminate H; try reflexivity; eauto; destruct H as [[? H]|(? & ? & H)]; discriminate H.
Qed.

(** A constant function, whatever its number of outputs: the integral of every output, an array of the function's
    output shape. *)
Theorem C76_constant : forall n dt bs cod i o v, bs <> [] ->
  exists w, box_call (S n) dt bs cod (FConst i o v) = Ok w /\ nshape w = o /\
    (forall r, box_integral bs (fun x => feval (FConst i o v) (coords x) r) (nat_ w r)) /\
    exists z, box_call (S n) dt bs cod (FZero i o) = Ok z /\ nshape z = o /\ forall r, nat_ z r = 0.
Proof.
  intros n dt bs cod i o v H. cbn [box_call box_step]. rewrite (proj1 (proj2 (proj2 DomainProps.C12_volume)) dt bs H). cbn [bind].
  eexists. split; [reflexivity|]. split; [reflexivity|]. split; [intros r; cbn [feval nat_]; apply bint_const|].
  eexists. split; [reflexivity|]. split; [reflexivity|]. intros r. cbn. ring.
Qed.

Lemma box_scaled n dt bs cod c f : box_call n dt bs cod (FScaled c f) = Err RecursionError.
Proof. induction n as [|n IH]; [reflexivity|]. cbn [box_call box_step lbase_call]. rewrite IH. reflexivity. Qed.
Lemma nquad_shaped fs f v : nquad fs f = Ok v -> in_shape f = [].
Proof.
  unfold nquad. destruct (existsb _ fs); [discriminate|]. destruct fs as [|[dt l u| | |] [|]]; try discriminate.
  unfold quad. destruct (shape_eqb_spec (in_shape f) []); [auto|discriminate].
Qed.
Lemma or_else_ok {A} (r s : result A) v : or_else r s = Ok v -> r = Ok v \/ r = Err NotImplementedError /\ s = Ok v.
Proof. destruct r as [w|[]]; cbn; intros H; try discriminate H; auto. Qed.

(** What is returned for a function of points of the box is its integral. *)
Theorem C76_sound : forall n dt bs cod f v, bs <> [] -> fwf f -> in_shape f = [length bs] -> out_shape f = cod ->
  box_call n dt bs cod f = Ok v ->
  nshape v = cod /\ forall r, box_integral bs (fun x => feval f (coords x) r) (nat_ v r).
Proof.
  induction n as [|n IH]; intros dt bs cod f v N W Ei Eo H; [discriminate|].
  destruct f as [i o g|i o u|i o|p|c f|gs]; cbn [in_shape out_shape] in Ei, Eo.
  - cbn [box_call box_step lbase_call or_else] in H. destruct (negb _); [discriminate|]. apply nquad_shaped in H. cbn [in_shape] in H. congruence.
  - destruct (C76_constant n dt bs cod i o u N) as (w & E & S & V & _). rewrite E in H. injection H as ->. split; [congruence|exact V].
  - destruct (C76_constant n dt bs cod i o (fun _ => 0) N) as (w0 & _ & _ & _ & z & E & S & Z). rewrite E in H. injection H as ->. split; [congruence|].
    intros r. cbn [feval]. rewrite Z. assert (B := bint_const bs 0). rewrite Rmult_0_l in B. exact B.
  - discriminate Ei.
  - rewrite box_scaled in H. discriminate H.
  - inversion W as [| | | | |g gs' i o Hg]; subst gs. rename gs' into gs.
    cbn [box_call box_step] in H. apply or_else_ok in H as [B|[_ Q]].
    2: { destruct (negb _); [discriminate|]. apply nquad_shaped in Q. cbn [in_shape] in Q, Ei. congruence. }
    cbn [lbase_call] in B. destruct (LfoModel.mapM (box_call n dt bs cod) (g :: gs)) as [ws|] eqn:M; [|discriminate]. cbn [bind] in B.
    destruct (Hg g (or_introl eq_refl)) as (_ & _ & Ig & Og).
    assert (T : Forall2 (fun h w => nshape w = cod /\ forall r, box_integral bs (fun x => feval h (coords x) r) (nat_ w r)) (g :: gs) ws).
    { apply (mapM_forall _ _ _ _ M). intros h y Hh E. destruct (Hg h Hh) as (Wh & _ & Ih & Oh). apply (IH dt bs cod h y N Wh); [congruence|congruence|exact E]. }
    assert (Ne : ws <> []) by (inversion T; congruence).
    destruct (py_sum_ok ws v B Ne) as (_ & [w [Hw Sw]] & V).
    assert (C : nshape w = cod). { clear - T Hw. induction T as [|h y l m [C _] _ IHT]; [destruct Hw|]. destruct Hw as [<-|Hw]; [exact C|now apply IHT]. }
    split; [congruence|]. intros r. rewrite V.
    apply (bint_ext bs (fun x => total (map (fun h => feval h (coords x) r) (g :: gs)))).
    { intros x. cbn [feval]. now rewrite reduce_add_fold. }
    clear - T. induction T as [|h y l m [_ I] _ IHT].
    + assert (Z := bint_const bs 0). rewrite Rmult_0_l in Z. exact Z.
    + exact (bint_plus bs (fun x => feval h (coords x) r) (fun x => total (map (fun h => feval h (coords x) r) l)) _ _ (I r) IHT).
Qed.

(** Violated: no function other than sums of constants can be integrated over a box with the shapes of the box.
    Without an own rule the quadrature fails: the coordinates are passed as separate arguments (TypeError), or a
    number is passed to a function of arrays of one entry (ValueError); a collapsed side cannot be unpacked (TypeError). *)
Theorem C76_quadrature_refuted : forall n dt bs g, (1 <= length bs)%nat ->
  box_call (S n) dt bs [] (FOther [length bs] [] g) =
  match bs with [(l, u)] => if Req_EM_T l u then Err TypeError else Err ValueError | _ => Err TypeError end.
Proof.
  intros n dt bs g H. cbn [box_call box_step lbase_call or_else shape_eqb negb]. unfold nquad.
  assert (P : forall b, match DomainModel.box_factor dt b with DomainModel.Interval _ _ _ => false | _ => true end = if Req_EM_T (fst b) (snd b) then true else false).
  { intros b. unfold DomainModel.box_factor, Reqb. now destruct (Req_EM_T (fst b) (snd b)). }
  destruct bs as [|[l u] [|b bs]]; [cbn in H; lia| |].
  - cbn [DomainModel.box_factors map existsb]. rewrite P, orb_false_r. cbn [fst snd]. destruct (Req_EM_T l u) as [K|K]; [reflexivity|].
    specialize (P (l, u)). cbn [fst snd] in P. destruct (Req_EM_T l u); [contradiction|].
    destruct (DomainModel.box_factor dt (l, u)) as [d' l' u'| | |]; try discriminate P. reflexivity.
  - destruct (existsb _ _); [reflexivity|]. cbn [DomainModel.box_factors map].
    destruct (DomainModel.box_factor dt (l, u)); reflexivity.
Qed.

Example C76_quadrature_ex : box_integral [(0, 1); (0, 1)] (fun x => nth 0 x 0 * nth 1 x 0) (/ 4) /\
  box_call 1 DomainModel.F64 [(0, 1); (0, 1)] [] (FOther [2%nat] [] (fun x _ => x [0%nat] * x [1%nat])) = Err TypeError.
Proof.
  split; [|apply (C76_quadrature_refuted 0 DomainModel.F64 [(0, 1); (0, 1)]); cbn; lia].
  assert (P : forall t, is_RInt (fun s => t * s) 0 1 (t / 2)).
  { intros t. replace (t / 2) with (t * 1 ^ 2 / 2 - t * 0 ^ 2 / 2) by field. apply (is_RInt_derive (fun s => t * s ^ 2 / 2) (fun s => t * s)).
    - intros x _. auto_derive; [exact I|]. field.
    - intros x _. apply (ex_derive_continuous (fun s => t * s)). auto_derive. exact I. }
  cbn [box_integral nth]. exists (fun t => t / 2). split.
  - intros t _. exists (fun s => t * s). split; [reflexivity|apply P].
  - replace (/ 4) with (/ 2 / 2) by field. apply (is_RInt_ext (fun s => / 2 * s)); [intros x _; change (/ 2 * x = x / 2); lra|apply P].
Qed.

(** A box with one side that is not collapsed: a function of numbers, whose input shape is not that of the box, is
    integrated over the side. *)
Theorem C76_one_side : forall n dt l u g, l <> u ->
  exists w, box_call (S n) dt [(l, u)] [] (FOther [] [] g) = Ok w /\ nshape w = [] /\ nat_ w [] = RInt (fun t => g (fun _ => t) []) l u.
Proof.
  intros n dt l u g H. cbn [box_call box_step lbase_call or_else shape_eqb negb]. unfold nquad. cbn [DomainModel.box_factors map].
  unfold DomainModel.box_factor, Reqb. cbn [fst snd]. destruct (Req_EM_T l u); [contradiction|]. cbn [existsb orb]. eexists. split; [reflexivity|]. split; reflexivity.
Qed.
(** Functions with several outputs have no integral. *)
Theorem C76_several_outputs : forall n dt bs i o c cod g, box_call (S n) dt bs (c :: cod) (FOther i o g) = Err NotImplementedError.
Proof. reflexivity. Qed.
(** Scaled functions recurse forever. *)
Theorem C76_scaled_refuted : forall n dt bs cod c f, box_call n dt bs cod (FScaled c f) = Err RecursionError.
Proof. exact box_scaled. Qed.
(** A sum is only as good as its summands: one summand that fails makes the sum fail, for boxes of at least two
    sides. *)
Theorem C76_sum_fails : forall n dt bs gs g, (2 <= length bs)%nat -> In (FOther [length bs] [] g) gs ->
  forall v, box_call (S (S n)) dt bs [] (FSum gs) <> Ok v.
Proof.
  intros n dt bs gs g H Hin v E. cbn [box_call] in E. cbn [box_step] in E. apply or_else_ok in E as [B|[_ Q]].
  - cbn [lbase_call] in B. destruct (LfoModel.mapM _ gs) as [ws|] eqn:M; [|discriminate].
    assert (F := mapM_forall _ _ _ (fun f _ => f <> FOther [length bs] [] g) M).
    assert (K : Forall2 (fun f (_ : nd RF) => f <> FOther [length bs] [] g) gs ws).
    { apply F. intros f y _ E -> . assert (X := C76_quadrature_refuted n dt bs g ltac:(lia)). cbn [box_call] in X. rewrite X in E.
      destruct bs as [|[l u] [|b bs]]; cbn in H; try lia; discriminate E. }
    clear - K Hin. induction K as [|f y l m Hf _ IH]; [exact Hin|]. destruct Hin as [->|Hin]; [now apply Hf|auto].
  - destruct (negb _); [discriminate|]. unfold nquad in Q. destruct (existsb _ _); [discriminate|].
    destruct bs as [|b0 [|b1 bs]]; cbn in H; try lia. cbn [DomainModel.box_factors map] in Q. destruct (DomainModel.box_factor dt b0); discriminate Q.
Qed.
Example C76_sum_fails_ex : In (FOther [2%nat] [] (fun x _ => x [0%nat])) [FConst [2%nat] [] (fun _ => 1); FOther [2%nat] [] (fun x _ => x [0%nat])].
Proof. right. now left. Qed.

(** Violated: a polynomial, a function of numbers, is not refused on a box of two proper sides: the antiderivative at the
    bounds of the second side minus that at the bounds of the first, an array of two numbers instead of one. *)
Theorem C76_polynomial_refuted : forall n dt l0 u0 l1 u1 bs cod p, l0 <> u0 -> l1 <> u1 -> py_valid p ->
  exists w, box_call (S n) dt ((l0, u0) :: (l1, u1) :: bs) cod (FPoly p) = Ok w /\ nshape w = [2%nat] /\
    is_RInt (py_eval p) l0 l1 (nat_ w [0%nat]) /\ is_RInt (py_eval p) u0 u1 (nat_ w [1%nat]).
Proof.
  intros n dt l0 u0 l1 u1 bs cod p H0 H1 V. cbn [box_call box_step DomainModel.box_factors map]. unfold DomainModel.box_factor, Reqb. cbn [fst snd].
  destruct (Req_EM_T l0 u0); [contradiction|]. destruct (Req_EM_T l1 u1); [contradiction|].
  unfold poly_box, nd_diff. cbn [factor_array nd_map nshape]. eexists. split; [reflexivity|]. split; [reflexivity|].
  split; [exact (poly_lebesgue_is_RInt p l0 l1 V)|exact (poly_lebesgue_is_RInt p u0 u1 V)].
Qed.
(** A collapsed side counts as one number in place of two bounds: with one collapsed side among the first two there are
    still two numbers, with both collapsed one. *)
Theorem C76_polynomial_collapsed_refuted : forall n dt l u a b bs cod p, l <> u -> py_valid p ->
  (exists w, box_call (S n) dt ((a, a) :: (l, u) :: bs) cod (FPoly p) = Ok w /\ nshape w = [2%nat] /\
     is_RInt (py_eval p) a l (nat_ w [0%nat]) /\ is_RInt (py_eval p) a u (nat_ w [1%nat])) /\
  (exists w, box_call (S n) dt ((l, u) :: (a, a) :: bs) cod (FPoly p) = Ok w /\ nshape w = [2%nat] /\
     is_RInt (py_eval p) l a (nat_ w [0%nat]) /\ is_RInt (py_eval p) u a (nat_ w [1%nat])) /\
  (exists w, box_call (S n) dt ((a, a) :: (b, b) :: bs) cod (FPoly p) = Ok w /\ nshape w = [] /\
     is_RInt (py_eval p) a b (nat_ w [])).
Proof.
  intros n dt l u a b bs cod p H V. cbn [box_call box_step DomainModel.box_factors map]. unfold DomainModel.box_factor, Reqb. cbn [fst snd].
  destruct (Req_EM_T l u); [contradiction|]. destruct (Req_EM_T a a); [|congruence]. destruct (Req_EM_T b b); [|congruence].
  unfold poly_box, nd_diff. cbn [factor_array nd_map nshape].
  split; [|split]; (eexists; split; [reflexivity|]; split; [reflexivity|]).
  - split; [exact (poly_lebesgue_is_RInt p a l V)|exact (poly_lebesgue_is_RInt p a u V)].
  - split; [exact (poly_lebesgue_is_RInt p l a V)|exact (poly_lebesgue_is_RInt p u a V)].
  - exact (poly_lebesgue_is_RInt p a b V).
Qed.
Example C76_polynomial_collapsed_ex : 0 <> 2 /\ py_valid (make_rational [Qcanon.Q2Qc (QArith_base.Qmake 1 1); Qcanon.Q2Qc (QArith_base.Qmake 2 1)]).
Proof. split; [lra|]. unfold make_rational. apply py_valid_rat. discriminate. Qed.
(** On a box with one side it raises IndexError. *)
Theorem C76_polynomial_one_side : forall n dt b cod p, box_call (S n) dt [b] cod (FPoly p) = Err IndexError.
Proof. reflexivity. Qed.

(** A box without sides is accepted by [Box], but neither of the two rules works on it. *)
Theorem C76_no_sides : forall n dt i g p cod,
  DomainModel.mk_box (DomainModel.mkarray DomainModel.F64 [0%nat; 2%nat] []) = Ok (DomainModel.Box DomainModel.F64 []) /\
  box_call (S n) dt [] [] (FOther i [] g) = Err IndexError /\ box_call (S n) dt [] cod (FPoly p) = Err IndexError.
Proof. intros n dt i g p cod. repeat split. Qed.

(** Covariance functions: the integral is accepted exactly if the argument number is 0 or 1 and the shapes are those of
    the functional with a scalar codomain (ValueError otherwise, NotImplementedError for several outputs). *)
Theorem C76_covariance : forall dom cod insh outsh argnum,
  (cov_integral dom cod insh outsh argnum = Ok tt <-> (argnum = 0 \/ argnum = 1)%nat /\ insh = dom /\ outsh = cod /\ cod = []) /\
  (cov_integral dom cod insh outsh argnum = Err NotImplementedError <-> (argnum = 0 \/ argnum = 1)%nat /\ insh = dom /\ outsh = cod /\ cod <> []) /\
  (cov_integral dom cod insh outsh argnum = Err ValueError <-> ~ ((argnum = 0 \/ argnum = 1)%nat /\ insh = dom /\ outsh = cod)).
Proof.
  intros dom cod insh outsh argnum. unfold cov_integral.
  destruct (Nat.eqb_spec argnum 0) as [A|A], (Nat.eqb_spec argnum 1) as [B|B]; cbn [orb negb]; try lia;
  destruct (shape_eqb_spec insh dom) as [C|C]; cbn [negb]; destruct (shape_eqb_spec outsh cod) as [D|D]; cbn [negb]; destruct (shape_eqb_spec cod []) as [E|E]; cbn [negb];
  repeat split; intros; try discriminate; try reflexivity; intuition (try congruence; try lia).
Qed.
(** Violated: over a box it is accepted but cannot be evaluated anywhere. *)
Theorem C76_covariance_refuted : forall bs xsh, (1 <= length bs)%nat ->
  (cov_box_eval bs (xsh ++ [length bs]) = if (size xsh =? 0)%nat then Err ValueError else if (length bs =? 1)%nat then Err IndexError else Err TypeError) /\
  (forall sh, (forall b, sh <> b ++ [length bs]) -> cov_box_eval bs sh = Err ValueError).
Proof.
  intros bs xsh H. split.
  - unfold cov_box_eval. rewrite rev_app_distr. cbn [rev app]. rewrite Nat.eqb_refl.
    assert (S : size (xsh ++ [length bs]) = (size xsh * length bs)%nat) by (rewrite size_app; cbn; lia).
    rewrite S. destruct (Nat.eqb_spec (size xsh) 0) as [E|E].
    + rewrite E. reflexivity.
    + destruct (Nat.eqb_spec (size xsh * length bs) 0) as [Z|Z]; [lia|]. destruct (Nat.ltb_spec (length bs) 2), (Nat.eqb_spec (length bs) 1); try lia; reflexivity.
  - intros sh Hs. unfold cov_box_eval. destruct (rev sh) as [|d r] eqn:E; [reflexivity|].
    destruct (Nat.eqb_spec d (length bs)) as [K|K]; [|reflexivity]. exfalso. apply (Hs (rev r)). rewrite <- (rev_involutive sh), E. cbn [rev]. now rewrite K.
Qed.

(** The unit square and a sum of two constants *)
Example C76_ex : exists w, box_call 2 DomainModel.F64 [(0, 1); (0, 2)] [] (FSum [FConst [2%nat] [] (fun _ => 3); FZero [2%nat] []]) = Ok w /\ nat_ w [] = 6.
Proof.
  destruct (C76_constant 0 DomainModel.F64 [(0, 1); (0, 2)] [] [2%nat] [] (fun _ => 3) ltac:(discriminate)) as (w & E & S & V & z & Ez & Sz & Vz).
  assert (O : ordered [(0, 1); (0, 2)]) by (intros l u [[= <- <-]|[[= <- <-]|[]]]; lra).
  assert (W : nat_ w [] = 6).
  { apply (bint_unique _ O _ _ _ (V [])). cbn [feval]. replace 6 with (3 * DomainSpec.widths [(0, 1); (0, 2)]) by (unfold DomainSpec.widths; cbn; lra). apply bint_const. }
  change (box_call 2 DomainModel.F64 [(0, 1); (0, 2)] [] (FSum [FConst [2%nat] [] (fun _ => 3); FZero [2%nat] []]))
    with (or_else (bind (LfoModel.mapM (box_call 1 DomainModel.F64 [(0, 1); (0, 2)] []) [FConst [2%nat] [] (fun _ => 3); FZero [2%nat] []]) py_sum) (nquad (DomainModel.box_factors DomainModel.F64 [(0, 1); (0, 2)]) (FSum [FConst [2%nat] [] (fun _ => 3); FZero [2%nat] []]))).
  cbn [LfoModel.mapM]. rewrite E, Ez. cbn [bind py_sum]. unfold reduceM. cbn [fold_left bind]. unfold nd_add. cbn [nd_map nshape]. rewrite S, Sz. cbn [shape_eqb or_else].
  eexists. split; [reflexivity|]. cbn [nd_map2 nd_map nat_]. rewrite W, Vz. cbn. ring.
Qed.
Print Assumptions C76_domains.
Print Assumptions C76_other_domains.
Print Assumptions C76_constant.
Print Assumptions C76_sound.
Print Assumptions C76_quadrature_refuted.
Print Assumptions C76_one_side.
Print Assumptions C76_several_outputs.
Print Assumptions C76_scaled_refuted.
Print Assumptions C76_sum_fails.
Print Assumptions C76_polynomial_refuted.
Print Assumptions C76_polynomial_one_side.
Print Assumptions C76_covariance.
Print Assumptions C76_covariance_refuted.
