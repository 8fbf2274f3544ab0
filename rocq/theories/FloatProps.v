(** C72: covariance functions are symmetric in floating-point arithmetic. *)
From Coq Require Import List Reals Bool Arith ZArith Lia Lra QArith Qcanon.
From Coq.Floats Require Import SpecFloat.
From Verif Require Import Base NdArray PolyModel PolyClassModel PolyCalc FunExprModel DiffopModel LfoModel KernelModel WendlandModel AdModel AdCovModel AdCovProofs FloatModel FloatSpec FloatProofs.
Import ListNotations.

(** Exchanging the points gives the same number, bit for bit: for every format, every implementation
    of [exp] and every rounding of the constants, with overflow, underflow, infinities and NaN. *)
Theorem C72_symmetric : forall prec emax lb c p (x y : farr),
  squares_only c = true -> cov_prog c = Ok p ->
  frun prec emax lb x y p = frun prec emax lb y x p.
Proof. intros prec emax lb c p x y Hs H. exact (squares_exact prec emax lb x y _ c p (le_n _) Hs H). Qed.
Theorem C72_wendland : forall prec emax lb w (x y : farr),
  frun prec emax lb x y (wendland_prog w) = frun prec emax lb y x (wendland_prog w).
Proof. intros. apply PE_wendland. Qed.

(** Derivatives: the same number or its negative, up to the sign of a zero. *)
Theorem C72_even : forall prec emax lb c p (x y : farr) s,
  l_cst lb 0 = S754_zero s -> odd_order c = Some false -> cov_prog c = Ok p ->
  same_value (frun prec emax lb x y p) (frun prec emax lb y x p).
Proof. intros prec emax lb c p x y s Z Hs H. exact (parity_all prec emax lb x y (ex_intro _ s Z) _ c p false (le_n _) Hs H). Qed.
Theorem C72_odd : forall prec emax lb c p (x y : farr) s,
  l_cst lb 0 = S754_zero s -> odd_order c = Some true -> cov_prog c = Ok p ->
  opposite (frun prec emax lb x y p) (frun prec emax lb y x p).
Proof. intros prec emax lb c p x y s Z Hs H. exact (parity_all prec emax lb x y (ex_intro _ s Z) _ c p true (le_n _) Hs H). Qed.

(** A derivative in one argument is the derivative in the other argument at the exchanged points. *)
Theorem C72_mirrored : forall prec emax lb c p q (x y : farr) s,
  l_cst lb 0 = S754_zero s -> (forall a, opposite (l_cst lb (- a)) (l_cst lb a)) ->
  cov_prog c = Ok p -> cov_prog (mirrored c) = Ok q ->
  same_value (frun prec emax lb x y p) (frun prec emax lb y x q).
Proof. intros prec emax lb c p q x y s Z O H K. exact (mirror_all prec emax lb x y (ex_intro _ s Z) O _ c p q (le_n _) H K). Qed.
Theorem C72_direction : forall prec emax lb n sh v k c0 c1 p0 p1 (x y : farr) s,
  l_cst lb 0 = S754_zero s -> (forall a, opposite (l_cst lb (- a)) (l_cst lb a)) ->
  (exists e, k = CExp e) \/ (exists m, k = CMat m) ->
  ccall n (ODiff (DDir sh v)) k 0 = Ok c0 -> ccall n (ODiff (DDir sh v)) k 1 = Ok c1 ->
  cov_prog c0 = Ok p0 -> cov_prog c1 = Ok p1 ->
  same_value (frun prec emax lb x y p0) (frun prec emax lb y x p1).
Proof.
  intros prec emax lb n sh v k c0 c1 p0 p1 x y s Z O D H0 H1 P0 P1.
  assert (K : c1 = mirrored c0); [|rewrite K in P1; eapply C72_mirrored; eauto].
  clear P0 P1. destruct n as [|n]; [discriminate|]. cbn [ccall cov_diffop_call] in H0, H1. unfold cov_dir_call in H0, H1.
  destruct D as [[e ->]|[m ->]]; destruct (validate _ _ _ 0); try discriminate; destruct (validate _ _ _ 1); try discriminate; cbn [bind] in H0, H1.
  - injection H0 as <-. injection H1 as <-. reflexivity.
  - unfold mk_matdir in *. destruct (mt_nu m) as [p|]; [|discriminate]. destruct (py_floordiv _ _) as [q|]; [|discriminate].
    cbn [bind] in H0, H1. injection H0 as <-. injection H1 as <-. reflexivity.
Qed.

(** The same directional derivative in both arguments: entry (i, j) and entry (j, i) of the Gram
    matrix agree, for any two points. *)
Theorem C72_gram : forall prec emax lb n sh v k c p (x y : farr) s,
  l_cst lb 0 = S754_zero s -> (exists e, k = CExp e) \/ (exists m, k = CMat m) ->
  bind (ccall n (ODiff (DDir sh v)) k 0) (fun k' => ccall n (ODiff (DDir sh v)) k' 1) = Ok c -> cov_prog c = Ok p ->
  same_value (frun prec emax lb x y p) (frun prec emax lb y x p).
Proof.
  intros prec emax lb n sh v k c p x y s Z D H P. eapply C72_even; [exact Z| |exact P].
  clear P. destruct n as [|n]; [discriminate|]. cbn [ccall cov_diffop_call] in H. unfold cov_dir_call in H.
  destruct D as [[e ->]|[m ->]]; destruct (validate _ _ _ 0); try discriminate; cbn [bind] in H.
  - destruct (validate _ _ _ 1); try discriminate. cbn [bind is0 is1 Nat.eqb andb negb] in H. injection H as <-. reflexivity.
  - unfold mk_matdir in H. destruct (mt_nu m) as [q|] eqn:E; [|discriminate]. destruct (py_floordiv _ _) as [pq|]; [|discriminate].
    cbn [bind] in H. destruct (validate _ _ _ 1); try discriminate. cbn [bind is0 is1 Nat.eqb andb negb] in H.
    destruct (univariate m) eqn:U; unfold mk_umatdirdir, mk_matdirdir in H; rewrite ?U, E in H; cbn [negb] in H;
      repeat match type of H with bind ?r _ = _ => destruct r; [cbn [bind] in H|discriminate] end; injection H as <-; reflexivity.
Qed.

(** At equal points of finite numbers the value is 1, exactly what is returned without a second point. *)
Lemma one_mul : SFmul 53 1024 (fone 53 1024) (fone 53 1024) = fone 53 1024.
Proof. reflexivity. Qed.
Theorem C72_diagonal_expquad : forall lb e (x : farr),
  l_cst lb 0 = S754_zero false -> (forall s, l_exp lb (S754_zero s) = fone 53 1024) ->
  (forall i, In i (all_indices (eq_shape e)) -> finite_f (x i) /\ finite_f (l_cst lb (eq_scale e i))) ->
  run64 lb x x (expquad_prog e) = fone 53 1024 /\ expquad_none 53 1024 lb = fone 53 1024.
Proof.
  intros lb e x Z E F. split; [|reflexivity]. unfold run64, expquad_prog. cbn [frun]. rewrite sqdist_self; auto. apply E.
Qed.
Lemma half_integer_head p : exists l, float_coeffs (make_rational (half_integer_coefficients p)) = 1%R :: l.
Proof.
  unfold half_integer_coefficients, make_rational, mkpoly. rewrite Nat.add_1_r. cbn [seq map float_coeffs].
  eexists. f_equal. rewrite <- Qc2R_1. f_equal. rewrite !Nat.sub_0_r. cbn [fact Nat.pow].
  replace (fact p * fact (2 * p) * 1)%nat with (fact (2 * p) * 1 * fact p)%nat by ring.
  unfold Qcdiv. apply Qcmult_inv_r. intros E. apply (f_equal this) in E. unfold qnat in E.
  assert (E' : Qeq (inject_Z (Z.of_nat (fact (2 * p) * 1 * fact p))) 0).
  { rewrite <- (Qred_correct (inject_Z _)). change (Qeq (this (Q2Qc (inject_Z (Z.of_nat (fact (2 * p) * 1 * fact p))))) 0). rewrite E. reflexivity. }
  unfold Qeq in E'. cbn [Qnum Qden inject_Z] in E'. assert (N1 := lt_O_fact (2 * p)). assert (N2 := lt_O_fact p).
  assert (0 < fact (2 * p) * 1 * fact p)%nat by (rewrite Nat.mul_1_r; now apply Nat.mul_pos_pos). lia.
Qed.
Theorem C72_diagonal_matern : forall lb m n p (x : farr),
  l_cst lb 0 = S754_zero false -> l_cst lb 1 = fone 53 1024 -> (forall s, l_exp lb (S754_zero s) = fone 53 1024) ->
  mt_nu m = HalfInt n -> matern_prog m = Ok p ->
  (forall c, In c (float_coeffs (make_rational (half_integer_coefficients n))) -> finite_f (l_cst lb c)) ->
  (forall i, In i (all_indices (mt_shape m)) -> finite_f (x i) /\ finite_f (l_cst lb (mt_scale m i))) ->
  run64 lb x x p = fone 53 1024 /\ matern_none 53 1024 lb m = Ok (fone 53 1024).
Proof.
  intros lb m n p x Z I E Hn Hp Fc F. unfold matern_prog in Hp. rewrite Hn in Hp. unfold matern_none. rewrite Hn.
  destruct (half_integer_head n) as [l Hl]. rewrite Hl in *. injection Hp as <-.
  split.
  - unfold run64. cbn [frun]. fold (frun 53 1024).
    assert (D : frun 53 1024 lb x x (dist_prog (mt_shape m) (mt_scale m)) = S754_zero false).
    { unfold dist_prog. cbn [frun]. rewrite sqdist_self; auto. }
    rewrite D, (horner_zero 53 1024 lb x (1%R :: l) _ 1%R D Fc); [|discriminate|reflexivity|rewrite I; do 3 eexists; reflexivity].
    rewrite I. cbn [SFopp]. rewrite E. reflexivity.
  - f_equal. cbn [frun].
    rewrite (horner_zero 53 1024 lb _ (1%R :: l) _ 1%R); [|reflexivity|exact Fc|discriminate|reflexivity|rewrite I; do 3 eexists; reflexivity].
    rewrite I. cbn [SFopp]. rewrite E. reflexivity.
Qed.
(** At an infinite point the two calls disagree: NaN with the point given twice, 1 with it given once. *)
Theorem C72_diagonal_infinite_refuted : forall lb e (x : farr) i s,
  l_exp lb S754_nan = S754_nan -> In i (all_indices (eq_shape e)) -> x i = S754_infinity s ->
  run64 lb x x (expquad_prog e) = S754_nan /\ expquad_none 53 1024 lb = fone 53 1024.
Proof.
  intros lb e x i s E H Hx. split; [|reflexivity]. unfold run64, expquad_prog. cbn [frun].
  assert (N : frun 53 1024 lb x x (sqdist_prog (eq_shape e) (eq_scale e)) = S754_nan); [|rewrite N; exact E].
  unfold sqdist_prog. induction (all_indices (eq_shape e)) as [|j l IH]; [contradiction|]. cbn [map psum fold_right frun].
  destruct H as [->|H].
  - rewrite Hx. destruct s; reflexivity.
  - fold (psum (map (fun i => PPow (PMul (PSub (PVar false i) (PVar true i)) (PCst (eq_scale e i))) 2) l)). rewrite (IH H).
    destruct (fpow _ _ _ _); reflexivity.
Qed.

(** Other smoothness parameters: the same error with one point and with two. *)
Theorem C72_other_smoothness : forall lb m a f, mt_nu m = OtherNu a f ->
  matern_prog m = Err NotImplementedError /\ matern_none 53 1024 lb m = Err NotImplementedError.
Proof. intros lb m a f H. unfold matern_prog, matern_none. now rewrite H. Qed.

(** ** Examples *)
(** A library: some [exp] with [exp 0 = 1], constants replaced by signs *)
Definition ex_lib : lib :=
  mklib (fun a => match a with S754_zero _ => fone 53 1024 | S754_nan => S754_nan | _ => SFdiv 53 1024 (fone 53 1024) (SFmul 53 1024 a a) end)
        (fun a => a) (fun a => a)
        (fun c => if Rlt_dec 0 c then fone 53 1024 else if Rlt_dec c 0 then SFopp (fone 53 1024) else S754_zero false).
Lemma ex_lib_0 : l_cst ex_lib 0 = S754_zero false.
Proof. cbn. destruct (Rlt_dec 0 0); [lra|reflexivity]. Qed.
Lemma ex_lib_1 c : (0 < c)%R -> l_cst ex_lib c = fone 53 1024.
Proof. intros H. cbn. destruct (Rlt_dec 0 c); [reflexivity|contradiction]. Qed.
Lemma ex_lib_opp a : a <> 0%R -> l_cst ex_lib (- a) = SFopp (l_cst ex_lib a).
Proof. intros H. cbn. destruct (Rlt_dec 0 (- a)), (Rlt_dec 0 a), (Rlt_dec (- a) 0), (Rlt_dec a 0); try lra; reflexivity. Qed.
Lemma ex_lib_neg a : opposite (l_cst ex_lib (- a)) (l_cst ex_lib a).
Proof. destruct (Req_dec a 0) as [->|H]; [rewrite Ropp_0, ex_lib_0; right; do 2 eexists; split; reflexivity|left; now apply ex_lib_opp]. Qed.
(** The numbers 3 and 1/10 *)
Definition three : farr := fun _ => S754_finite false 6755399441055744 (-51).
Definition tenth : farr := fun _ => S754_finite false 7205759403792794 (-56).
Definition ex_eq : expquad := ExpQuad [] (fun _ => 1%R).
Lemma ex_scale : (0 < eq_scale ex_eq [])%R.
Proof. unfold eq_scale. cbn [eq_len ex_eq]. assert (0 < sqrt 2)%R by (apply sqrt_lt_R0; lra). apply Rdiv_lt_0_compat; lra. Qed.
Example C72_ex_symmetric :
  run64 ex_lib three tenth (expquad_prog ex_eq) = run64 ex_lib tenth three (expquad_prog ex_eq) /\
  exists m k, run64 ex_lib three tenth (expquad_prog ex_eq) = S754_finite false m k.
Proof.
  split; [exact (C72_symmetric 53 1024 ex_lib (CExp ex_eq) _ three tenth eq_refl eq_refl)|].
  unfold run64, expquad_prog, sqdist_prog. cbn [eq_shape ex_eq all_indices map psum fold_right frun]. fold ex_eq.
  rewrite ex_lib_0, (ex_lib_1 _ ex_scale). vm_compute. do 2 eexists. reflexivity.
Qed.
(** A directional derivative: the value changes its sign *)
Example C72_ex_odd : exists c p m k, ccall 1 (ODiff (DDir [] (fun _ => 1%R))) (CExp ex_eq) 0 = Ok c /\ cov_prog c = Ok p /\
  opposite (run64 ex_lib three tenth p) (run64 ex_lib tenth three p) /\ run64 ex_lib three tenth p = S754_finite true m k.
Proof.
  do 2 eexists. assert (P : (0 < 1 / 1 ^ 2)%R) by lra.
  assert (N : l_cst ex_lib (- (1 / 1 ^ 2)) = SFopp (fone 53 1024)) by (rewrite ex_lib_opp, (ex_lib_1 _ P); [reflexivity|lra]).
  assert (H : l_cst ex_lib (- (1 / 2)) = SFopp (fone 53 1024)) by (rewrite ex_lib_opp, ex_lib_1 by lra; reflexivity).
  assert (O : l_cst ex_lib 1 = fone 53 1024) by (apply ex_lib_1; lra).
  do 2 eexists. split; [reflexivity|]. split; [reflexivity|]. split.
  - exact (C72_odd 53 1024 ex_lib (CExpDir ex_eq (fun _ => 1%R) true) _ three tenth false ex_lib_0 eq_refl eq_refl).
  - unfold run64, pproj, pbsum, pexp_len, pnorm_sq, pbsum, pdiff, expdir_rescaled. cbn [eq_shape ex_eq eq_len all_indices map psum fold_right frun].
    cbn [is0 Nat.eqb]. rewrite ?ex_lib_0, ?N, ?H, ?O. vm_compute. reflexivity.
Qed.
Example C72_ex_direction : exists c0 c1 p0 p1,
  ccall 1 (ODiff (DDir [] (fun _ => 1%R))) (CExp ex_eq) 0 = Ok c0 /\ ccall 1 (ODiff (DDir [] (fun _ => 1%R))) (CExp ex_eq) 1 = Ok c1 /\
  cov_prog c0 = Ok p0 /\ cov_prog c1 = Ok p1 /\ same_value (run64 ex_lib three tenth p0) (run64 ex_lib tenth three p1).
Proof.
  do 4 eexists. split; [reflexivity|]. split; [reflexivity|]. split; [reflexivity|]. split; [reflexivity|].
  eapply (C72_direction 53 1024 ex_lib 1 [] (fun _ => 1%R) (CExp ex_eq)); [exact ex_lib_0|exact ex_lib_neg|left; eexists; reflexivity| | | |]; reflexivity.
Qed.
(** A Matérn covariance function of order 3/2 *)
Definition ex_mat : matern := Matern [] (fun _ => 1%R) (HalfInt 1).
Example C72_ex_matern : exists p, matern_prog ex_mat = Ok p /\ run64 ex_lib three three p = fone 53 1024.
Proof.
  eexists. split; [reflexivity|]. eapply (C72_diagonal_matern ex_lib ex_mat 1 _ three ex_lib_0); [apply ex_lib_1; lra|intros []; reflexivity|reflexivity|reflexivity| |].
  - intros c _. cbn. destruct (Rlt_dec 0 c); [exact I|]. destruct (Rlt_dec c 0); exact I.
  - intros i _. split; [exact I|]. cbn. destruct (Rlt_dec _ _); [exact I|]. destruct (Rlt_dec _ _); exact I.
Qed.
Example C72_ex_diagonal : run64 ex_lib three three (expquad_prog ex_eq) = fone 53 1024.
Proof.
  apply (C72_diagonal_expquad ex_lib ex_eq three ex_lib_0); [intros []; reflexivity|].
  intros i [<-|[]]. rewrite (ex_lib_1 _ ex_scale). split; vm_compute; exact I || (do 3 eexists; reflexivity) || reflexivity.
Qed.
Print Assumptions C72_symmetric.
Print Assumptions C72_wendland.
Print Assumptions C72_even.
Print Assumptions C72_odd.
Print Assumptions C72_mirrored.
Print Assumptions C72_direction.
Print Assumptions C72_gram.
Print Assumptions C72_diagonal_expquad.
Print Assumptions C72_diagonal_matern.
Print Assumptions C72_diagonal_infinite_refuted.
Print Assumptions C72_other_smoothness.
