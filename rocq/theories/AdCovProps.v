(** C67 for every covariance function with a closed form, sums, scalings and nested operators. *)
From Coq Require Import List Reals Bool Arith ZArith Lra Lia FunctionalExtensionality.
From Coquelicot Require Import Coquelicot.
From Verif Require Import Base NdArray PolyModel PolyClassModel FunExprModel DiffopModel LfoModel KernelModel
  AdModel AdSpec AdProofs AdKernels AdProps AdCovModel AdCovSpec AdCovProofs.
Import ListNotations.
Open Scope R_scope.

(** Exactly the covariance functions that jax can trace have a program. *)
Theorem C67_covariances_defined : forall c, traceable c <-> exists p, cov_prog c = Ok p.
Proof.
  assert (G : forall n c, (csize c <= n)%nat -> traceable c <-> exists p, cov_prog c = Ok p).
  { induction n as [|n IH]; intros c Hn; [destruct c; cbn [csize] in Hn; lia|].
    destruct c as [c|c d r|c d0 d1|c w r|c w0 w1|c d w r|m|m d r q|m d0 d1 a b|m d0 d1 q|m w r q|m w0 w1 q|m d w r q|s c|cs|sh f|].
    all: try (cbn [traceable cov_prog]; split; [intros _; eexists; reflexivity|intros _; exact I]).
    - cbn [traceable cov_prog]. unfold matern_prog. destruct (mt_nu m) as [k|]; split; intros [? ?]; eauto; discriminate.
    - cbn [traceable cov_prog]. rewrite (IH c) by (cbn [csize] in Hn; lia). destruct (cov_prog c); cbn [bind]; split; intros [? ?]; eauto; discriminate.
    - rewrite cov_prog_sum. cbn [traceable]. assert (L : forall c, In c cs -> (csize c <= n)%nat) by (intros c Hc; apply csize_in in Hc; lia). clear Hn.
      assert (A : (fix go cs := match cs with [] => True | c :: cs' => traceable c /\ go cs' end) cs <-> exists ps, cprogs cs = Ok ps /\ length ps = length cs).
      { induction cs as [|c cs IC]; [split; [intros _; exists []; auto|auto]|]. rewrite IC by (intros; apply L; now right). rewrite (IH c) by (apply L; now left). cbn [cprogs]. split.
        - intros [[p ->] (ps & -> & E)]. exists (p :: ps). cbn. auto.
        - intros (ps & H & E). destruct (cov_prog c) as [p|]; [|discriminate]. cbn [bind] in H. destruct (cprogs cs) as [qs|] eqn:Eq; [|discriminate]. injection H as <-. cbn in E. split; [eauto|exists qs; split; [reflexivity|lia]]. }
      rewrite A. split.
      + intros [NE (ps & -> & E)]. cbn [bind]. destruct ps as [|p ps]; [destruct cs; [now elim NE|discriminate]|]. eexists. reflexivity.
      + intros [p H]. destruct (cprogs cs) as [ps|] eqn:Eq; [|discriminate]. assert (E : length ps = length cs) by (clear -Eq; apply cprogs_in in Eq; induction Eq; cbn; congruence). split; [|exists ps; auto]. intros ->. cbn in Eq. injection Eq as <-. discriminate.
    - cbn [traceable cov_prog]. split; [contradiction|intros [? ?]; discriminate].
    - cbn [traceable cov_prog]. split; [contradiction|intros [? ?]; discriminate]. }
  intros c. exact (G (csize c) c (le_n _)).
Qed.
Print Assumptions C67_covariances_defined.

(** The errors otherwise: a sum without summands, an evaluation that is not implemented, a partial
    derivative that must not use jax, and one of order zero. *)
Theorem C67_errors :
  cov_prog (CSum []) = Err TypeError /\ cov_prog CNotImpl = Err NotImplementedError /\
  (forall m, (forall n, mt_nu m <> HalfInt n) -> cov_prog (CMat m) = Err NotImplementedError) /\
  (forall s c er, cov_prog c = Err er -> cov_prog (CScaled s c) = Err er) /\
  (forall c cs er, cov_prog c = Err er -> cov_prog (CSum (c :: cs)) = Err er) /\
  (forall c cs cs' er, (forall c, In c cs -> traceable c) -> cov_prog c = Err er -> cov_prog (CSum (cs ++ c :: cs')) = Err er) /\
  (forall al a p, ad_op (DPartialNoJax al) a p = Err NotImplementedError) /\
  (forall al a p, mi_order al = 0%nat -> ad_op (DPartial al) a p = Err IndexError) /\
  (forall d a p er ops, ad_op d a p = Err er -> ad_ops ((d, a) :: ops) p = Err er).
Proof.
  split; [reflexivity|]. split; [reflexivity|]. split; [|split; [|split; [|split; [|split; [|split]]]]].
  - intros m N. cbn [cov_prog]. unfold matern_prog. destruct (mt_nu m) as [n|]; [now elim (N n)|reflexivity].
  - intros s c er E. cbn [cov_prog]. now rewrite E.
  - intros c cs er E. rewrite cov_prog_sum. cbn [cprogs]. now rewrite E.
  - intros c cs cs' er T E. rewrite cov_prog_sum. assert (X : cprogs (cs ++ c :: cs') = Err er); [|now rewrite X]. induction cs as [|d cs IH]; cbn [app cprogs]; [now rewrite E|].
    destruct (proj1 (C67_covariances_defined d) (T d (or_introl eq_refl))) as [p ->]. cbn [bind]. rewrite IH; [reflexivity|]. intros c' Hc'. apply T. now right.
  - reflexivity.
  - intros al a p O. cbn [ad_op]. unfold factorize_first_order, composite_of.
    assert (Z : flat_map (fun '(i, n) => repeat (unit_mi (mi_shape al) i 1) n) (combine (all_indices (mi_shape al)) (mi_arr al)) = []).
    { unfold mi_order in O. revert O. generalize (all_indices (mi_shape al)). induction (mi_arr al) as [|n l IH]; intros [|i is] O; try reflexivity. change (n + list_sum l = 0)%nat in O. assert (n = 0%nat) by lia. subst n. cbn. now apply IH. }
    rewrite Z. reflexivity.
  - intros d a p er ops E. cbn [ad_ops]. now rewrite E.
Qed.
Print Assumptions C67_errors.

(** Values, everywhere (also where the points coincide). *)
Theorem C67_covariances_values : forall c p x0 x1, cov_prog c = Ok p -> scales c -> run (x0, x1) p = Fin (ceval c x0 x1).
Proof.
  intros c p x0 x1 H S. rewrite (run_fine _ _ (cov_fine c p (x0, x1) H S)). f_equal. exact (cov_val (csize c) c p (le_n _) H (x0, x1)).
Qed.
Print Assumptions C67_covariances_values.

Lemma cov_val_on c p : cov_prog c = Ok p -> (fun e => pval e p) = on (ceval c).
Proof. intros H. extensionality e. exact (cov_val (csize c) c p (le_n _) H e). Qed.
(** All derivatives where the points differ (everywhere if no Matérn covariance function occurs). *)
Theorem C67_covariances : forall c p ds e, cov_prog c = Ok p -> scales c -> (forall m, In m (materns c) -> apart (mt_shape m) e) ->
  run e (iterate p ds) = Fin (derivs ds (fun e => ceval c (fst e) (snd e)) e) /\
  differentiable ds (fun e => ceval c (fst e) (snd e)) e.
Proof.
  intros c p ds e H S M. fold (on (ceval c)). rewrite <- (cov_val_on c p H). apply regular_ok. now apply (cov_reg c).
Qed.
Print Assumptions C67_covariances.

(** Operators one after the other, each by automatic differentiation. *)
Theorem C67_nested : forall c p ops q e, cov_prog c = Ok p -> ad_ops ops p = Ok q -> scales c -> (forall m, In m (materns c) -> apart (mt_shape m) e) ->
  run e q = Fin (ops_deriv ops (fun e => ceval c (fst e) (snd e)) e).
Proof.
  intros c p ops q e H Hq S M. destruct (ad_ops_ok ops p q e Hq (cov_reg c p e H S M)) as [R V]. rewrite (run_reg e q R), V, (cov_val_on c p H). reflexivity.
Qed.
Print Assumptions C67_nested.
(** The covariance function that the fallback returns has the value of the program. *)
Theorem C67_fallback : forall d c a c' p q x0 x1, cov_jax d c a = Ok c' -> cov_prog c = Ok p -> ad_op d a p = Ok q -> scales c ->
  (forall m, In m (materns c) -> apart (mt_shape m) (x0, x1)) -> run (x0, x1) q = Fin (ceval c' x0 x1).
Proof.
  intros d c a c' p q x0 x1 H Hp Hq S M. unfold cov_jax in H. destruct (jax_op d) as [T|] eqn:HT; [|discriminate]. cbn [bind] in H. destruct (length (d_dom d) <=? 1)%nat; [|discriminate]. injection H as <-. cbn [ceval].
  apply (op_run p (ceval c) d a q T x0 x1 Hq HT). intros ds _. now apply C67_covariances.
Qed.
Print Assumptions C67_fallback.

(** * The diagonal *)
Definition nonempty_op (d : dop) : Prop := match d with DLap _ sh _ => exists i, valid_index sh i | _ => True end.
Lemma nan_op sh sc d a p q : (exists i, valid_index sh i) -> nonempty_op d -> (forall b v, nan sh sc (pjvp b p v)) -> ad_op d a p = Ok q -> nan sh sc q.
Proof.
  intros N V H Hq. destruct d as [al|al|bb sh' w|sh' v]; cbn [ad_op] in Hq.
  - destruct (factorize_first_order al) as [fs|] eqn:Ef; [|discriminate]. injection Hq as <-. set (b := negb (a =? 0)%nat).
    assert (NE : fs <> []) by (unfold factorize_first_order, composite_of in Ef; destruct (flat_map _ _); [discriminate|injection Ef as <-; discriminate]). destruct fs as [|f fs]; [now elim NE|]. cbn [fold_left].
    replace (fold_left (fun df e0 => pjvp b df (mi_dir e0)) fs (pjvp b p (mi_dir f))) with (iterate (pjvp b p (mi_dir f)) (map (fun f => (b, mi_dir f)) fs)); [apply (nan_iterate sh sc N), H|].
    clear. unfold iterate. generalize (pjvp b p (mi_dir f)). induction fs as [|g fs IH]; intros r; [reflexivity|]. cbn [map fold_left fst snd]. apply IH.
  - discriminate.
  - injection Hq as <-. set (b := negb (a =? 0)%nat). destruct V as (i & Hi). apply all_indices_spec in Hi. revert Hi. generalize (all_indices sh'). intros l.
    destruct l as [|j l]; intros Hi; [contradiction|]. cbn [map psum fold_right]. apply nan_add1, nan_mul2. exact (nan_iterate sh sc N [(b, basis_vec j)] _ (H b (basis_vec j))).
  - injection Hq as <-. apply H.
Qed.
Lemma nan_ops sh sc : (exists i, valid_index sh i) -> forall ops p q, List.Forall (fun o => nonempty_op (fst o)) ops -> nan sh sc p -> ad_ops ops p = Ok q -> nan sh sc q.
Proof.
  intros N. induction ops as [|[d a] ops IH]; intros p q V H Hq; cbn [ad_ops] in Hq; [now injection Hq as <-|]. inversion V as [|? ? V1 V2]; subst. destruct (ad_op d a p) as [p'|] eqn:E; [|discriminate]. cbn [bind] in Hq.
  apply (IH p' q V2); [|exact Hq]. apply (nan_op sh sc d a p p' N V1); [|exact E]. intros b v. exact (nan_iterate sh sc N [(b, v)] p H).
Qed.
(** Finding: as soon as one Matérn covariance function occurs in it, at coinciding points every
    derivative of a covariance function that goes through automatic differentiation is "not a number",
    and so are the results of operators. *)
Theorem C67_diagonal_covariances_refuted : forall c p m e, cov_prog c = Ok p -> In m (materns c) -> (exists i, valid_index (mt_shape m) i) -> coincide (mt_shape m) e ->
  (forall ds, ds <> [] -> run e (iterate p ds) = NaN) /\
  (forall ops q, ops <> [] -> List.Forall (fun o => nonempty_op (fst o)) ops -> ad_ops ops p = Ok q -> run e q = NaN).
Proof.
  intros c p m e H Hm N C. assert (B : forall b v, exists g, tangent b v p = Some g /\ nan (mt_shape m) (mt_scale m) g) by (intros b v; exact (cov_bad m b v N (csize c) c p (le_n _) H Hm)). split.
  - intros ds D. now apply (nan_first (mt_shape m) (mt_scale m)).
  - intros ops q D V Hq. apply (nan_run (mt_shape m) (mt_scale m) e C). destruct ops as [|[d a] ops]; [now elim D|]. inversion V as [|? ? V1 V2]; subst. cbn [ad_ops] in Hq.
    destruct (ad_op d a p) as [p'|] eqn:E; [|discriminate]. cbn [bind] in Hq. apply (nan_ops _ _ N ops p' q V2); [|exact Hq]. apply (nan_op _ _ d a p p' N V1); [|exact E].
    intros b v. unfold pjvp. destruct (B b v) as (g & -> & G). exact G.
Qed.
Print Assumptions C67_diagonal_covariances_refuted.

(** * A concrete case: a sum of a Matérn covariance function and the scaled derivative of an
    exponentiated quadratic one, the Laplacian in both arguments. *)
Definition adc_e : expquad := ExpQuad [2%nat] (fun _ => 2).
Definition adc : cov := CSum [CMat ad_m; CScaled 3 (CExpDir adc_e ad_x true)].
Definition adc_ops : list (dop * nat) := [(DLap true [2%nat] (fun _ => 1), 0%nat); (DLap true [2%nat] (fun _ => 1), 1%nat)].
Example adc_scales : scales adc.
Proof. cbn. repeat split; try (intros i _; cbn; apply not_eq_sym, Rlt_not_eq; lra). lra. Qed.
Example adc_ok : exists p q, cov_prog adc = Ok p /\ ad_ops adc_ops p = Ok q /\
  run (ad_x, ad_x) p = Fin (ceval adc ad_x ad_x) /\
  run (ad_x, ad_y) q = Fin (ops_deriv adc_ops (fun e => ceval adc (fst e) (snd e)) (ad_x, ad_y)) /\
  run (ad_x, ad_x) q = NaN.
Proof.
  eexists. eexists. split; [reflexivity|]. split; [reflexivity|]. split; [|split].
  - apply C67_covariances_values; [reflexivity|exact adc_scales].
  - eapply C67_nested; [reflexivity|reflexivity|exact adc_scales|]. intros m [<-|[]]. exact ad_apart.
  - eapply (C67_diagonal_covariances_refuted adc _ ad_m (ad_x, ad_x) eq_refl) with (ops := adc_ops); try reflexivity; try discriminate.
    + now left.
    + exists [0%nat]. repeat constructor.
    + intros i _. reflexivity.
    + repeat constructor; exists [0%nat]; repeat constructor.
Qed.
