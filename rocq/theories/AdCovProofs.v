From Coq Require Import List Reals Bool Arith ZArith Lra Lia FunctionalExtensionality.
From Coquelicot Require Import Coquelicot.
From Verif Require Import Base NdArray PolyModel PolyClassModel PolyProofs PolyCalc FunExprModel DiffopModel LfoModel LfoSmooth KernelModel
  AdModel AdSpec AdProofs AdKernels AdProps AdCovModel AdCovSpec.
Import ListNotations.
Open Scope R_scope.

(** * Programs that may take the root of zero *)
Fixpoint fine (e : points) (p : prog) : Prop :=
  match p with
  | PVar _ _ | PCst _ => True
  | PAdd p q | PSub p q | PMul p q => fine e p /\ fine e q
  | PDiv p q => fine e p /\ fine e q /\ pval e q <> 0
  | PNeg p | PExp p | PSin p | PCos p => fine e p
  | PSqrt p => fine e p /\ 0 <= pval e p
  | PPow p n => fine e p /\ ((0 <= n)%Z \/ pval e p <> 0)
  | PWhere r p q => fine e r /\ fine e p /\ fine e q
  end.
Lemma run_fine e p : fine e p -> run e p = Fin (pval e p).
Proof.
  induction p; cbn [fine run pval]; intros H.
  - reflexivity.
  - reflexivity.
  - rewrite IHp1, IHp2 by tauto. reflexivity.
  - rewrite IHp1, IHp2 by tauto. reflexivity.
  - rewrite IHp1, IHp2 by tauto. reflexivity.
  - rewrite IHp1, IHp2 by tauto. cbn [ediv]. destruct (Reqb_spec (pval e p2) 0); [tauto|reflexivity].
  - rewrite IHp by tauto. reflexivity.
  - rewrite IHp by tauto. reflexivity.
  - rewrite IHp by tauto. cbn [esqrt]. destruct (Rleb_spec 0 (pval e p)); [reflexivity|lra].
  - rewrite IHp by tauto. reflexivity.
  - rewrite IHp by tauto. reflexivity.
  - rewrite IHp by tauto. now apply epow_ok.
  - rewrite IHp1 by tauto. cbn [ele1]. unfold Rleb. destruct (Rle_dec (pval e p1) 1); [apply IHp2|apply IHp3]; tauto.
Qed.
Lemma reg_fine e p : reg e p -> fine e p.
Proof. induction p; cbn [reg fine]; intros H; intuition lra. Qed.
Lemma fine_psum e l : (forall p, In p l -> fine e p) -> fine e (psum l).
Proof. induction l as [|p l IH]; intros H; [exact I|]. split; [apply H; now left|apply IH; intros q Hq; apply H; now right]. Qed.
Lemma fine_horner e cs x : fine e x -> fine e (horner_prog cs x).
Proof.
  intros H. unfold horner_prog. assert (G : forall l p, fine e p -> fine e (fold_left (fun res k => PAdd (PMul res x) (PCst (nth k cs 0))) l p)).
  { induction l as [|k l IH]; intros p Hp; [exact Hp|]. cbn [fold_left]. apply IH. cbn [fine]. auto. }
  apply G. exact I.
Qed.

(** * Parts *)
Section Parts.
Variable e : points.
Notation D := (vdiff (fst e) (snd e)).
Lemma pbsum_val sh f : pval e (pbsum sh f) = bsum sh (fun i => pval e (f i)).
Proof. unfold pbsum. rewrite psum_val, map_map. reflexivity. Qed.
Lemma pbsum_reg sh f : (forall i, valid_index sh i -> reg e (f i)) -> reg e (pbsum sh f).
Proof. intros H. apply psum_reg. intros p Hp. apply in_map_iff in Hp as (i & <- & Hi). apply H. now apply all_indices_spec. Qed.
Lemma pnorm_val sh f : pval e (pnorm_sq sh f) = bnorm_sq sh (fun i => pval e (f i)).
Proof. unfold pnorm_sq. rewrite pbsum_val. reflexivity. Qed.
Lemma pnorm_reg sh f : (forall i, valid_index sh i -> reg e (f i)) -> reg e (pnorm_sq sh f).
Proof. intros H. apply pbsum_reg. intros i Hi. split; [now apply H|]. left. lia. Qed.
Lemma pproj_val sh a : pval e (pproj sh a) = bsum sh (fun i => a i * D i).
Proof. unfold pproj. rewrite pbsum_val. reflexivity. Qed.
Lemma pproj_reg sh a : reg e (pproj sh a).
Proof. apply pbsum_reg. intros i _. cbn. auto. Qed.
Lemma pexp_len_val c : pval e (pexp_len c) = exp (- (1/2) * bnorm_sq (eq_shape c) (fun i => D i / eq_len c i)).
Proof. cbn [pexp_len pval]. rewrite pnorm_val. reflexivity. Qed.
Lemma pexp_len_reg c : nonzero (eq_shape c) (eq_len c) -> reg e (pexp_len c).
Proof. intros H. split; [exact I|]. apply pnorm_reg. intros i Hi. cbn. repeat split. now apply H. Qed.
Lemma pexp_scale_val c : pval e (pexp_scale c) = exp (- bnorm_sq (eq_shape c) (fun i => eq_scale c i * D i)).
Proof. cbn [pexp_scale pval]. rewrite pnorm_val. reflexivity. Qed.
Lemma pexp_scale_reg c : reg e (pexp_scale c).
Proof. apply pnorm_reg. intros i Hi. cbn. auto. Qed.
Lemma explap_val c w : pval e (explap_prog c w) = explap_eval c w (fst e) (snd e).
Proof. cbn [explap_prog pval]. rewrite pbsum_val, pexp_scale_val. reflexivity. Qed.
Lemma explap_reg c w : reg e (explap_prog c w).
Proof. split; [split; [|exact I]|apply pexp_scale_reg]. apply pbsum_reg. intros i _. cbn. auto. Qed.
Lemma expquad_v c : pval e (expquad_prog c) = expquad_eval c (fst e) (snd e).
Proof. exact (f_equal (fun f => f e) (expquad_val c)). Qed.
Lemma expquad_reg c : reg e (expquad_prog c).
Proof. exact (sqdist_reg e _ _). Qed.
Variable m : matern.
Lemma mt_r_val : pval e (mt_r m) = mt_dist m (fst e) (snd e).
Proof. apply dist_val. Qed.
Lemma mt_poly_val q : pval e (mt_poly m q) = py_eval q (mt_dist m (fst e) (snd e)).
Proof. unfold mt_poly. rewrite horner_val, mt_r_val. reflexivity. Qed.
Lemma mt_exp_val : pval e (mt_exp m) = exp (- mt_dist m (fst e) (snd e)).
Proof. cbn [mt_exp pval]. now rewrite mt_r_val. Qed.
Lemma mt_proj_val a : pval e (mt_proj m a) = bsum (mt_shape m) (fun i => a i * mt_diffs m (fst e) (snd e) i).
Proof. unfold mt_proj. rewrite pbsum_val. reflexivity. Qed.
Lemma mt_proj_reg a : reg e (mt_proj m a).
Proof. apply pbsum_reg. intros i _. cbn. auto. Qed.
Lemma mt_r_fine : fine e (mt_r m).
Proof.
  split; [apply reg_fine, sqdist_reg|]. rewrite sqdist_val. unfold bnorm_sq, bsum, rsum. generalize (all_indices (mt_shape m)). induction l as [|i l IH]; cbn [map fold_right]; [lra|].
  pose proof (pow2_ge_0 (D i * mt_scale m i)). lra.
Qed.
Lemma mt_r_reg : nonzero (mt_shape m) (mt_len m) /\ 0 < nu_val (mt_nu m) -> apart (mt_shape m) e -> reg e (mt_r m).
Proof.
  intros [L N] A. apply dist_reg, apart_dpos; [|exact A]. intros i Hi. unfold mt_scale. apply Rmult_integral_contrapositive_currified; [|now apply Rinv_neq_0_compat, L].
  assert (0 < 2 * nu_val (mt_nu m)) by lra. pose proof (sqrt_lt_R0 _ H). lra.
Qed.
End Parts.

(** * Covariance functions *)
Lemma preduce_val e : forall ps p, preduce ps = Ok p -> pval e p = rsum (map (pval e) ps).
Proof.
  intros [|p ps] q; [discriminate|]. intros [= <-]. cbn [map rsum fold_right]. fold (rsum (map (pval e) ps)). revert p. induction ps as [|p' ps IH]; intros p; cbn [fold_left map rsum fold_right]; [ring|].
  rewrite IH. cbn [pval]. fold (rsum (map (pval e) ps)). ring.
Qed.
Lemma preduce_all (P : prog -> Prop) : (forall p q, P p -> P q -> P (PAdd p q)) -> forall ps p, preduce ps = Ok p -> (forall q, In q ps -> P q) -> P p.
Proof.
  intros H [|p ps] q; [discriminate|]. intros [= <-] A. assert (P0 : P p) by (apply A; now left). assert (A' : forall q, In q ps -> P q) by (intros q Hq; apply A; now right).
  clear A. revert p P0. induction ps as [|p' ps IH]; intros p P0; [exact P0|]. cbn [fold_left]. apply IH; [intros q Hq; apply A'; now right|]. apply H; [exact P0|apply A'; now left].
Qed.
Fixpoint csize (c : cov) : nat :=
  match c with CScaled _ c => S (csize c) | CSum cs => S ((fix go cs := match cs with [] => 0%nat | c :: cs' => (csize c + go cs')%nat end) cs) | _ => 1%nat end.
Fixpoint cprogs (cs : list cov) : result (list prog) :=
  match cs with [] => Ok [] | c :: cs' => bind (cov_prog c) (fun p => bind (cprogs cs') (fun ps => Ok (p :: ps))) end.
Lemma cov_prog_sum cs : cov_prog (CSum cs) = bind (cprogs cs) preduce.
Proof.
  cbn [cov_prog]. f_equal.
Qed.
Lemma csize_in c cs : In c cs -> (csize c < csize (CSum cs))%nat.
Proof.
  cbn [csize]. induction cs as [|d cs IH]; [contradiction|]. intros [->|H]; [lia|]. specialize (IH H). lia.
Qed.
Lemma cprogs_in cs ps : cprogs cs = Ok ps -> Forall2 (fun c p => cov_prog c = Ok p) cs ps.
Proof.
  revert ps. induction cs as [|c cs IH]; intros ps; cbn [cprogs].
  - intros [= <-]. constructor.
  - destruct (cov_prog c) as [p|] eqn:E; [|discriminate]. cbn [bind]. destruct (cprogs cs) as [qs|]; [|discriminate]. cbn [bind]. intros [= <-]. constructor; auto.
Qed.
Lemma cov_val : forall n c p, (csize c <= n)%nat -> cov_prog c = Ok p -> forall e, pval e p = ceval c (fst e) (snd e).
Proof.
  induction n as [|n IH]; intros c p Hn H e; [destruct c; cbn [csize] in Hn; lia|].
  destruct c as [c|c d r|c d0 d1|c w r|c w0 w1|c d w r|m|m d r q|m d0 d1 a b|m d0 d1 q|m w r q|m w0 w1 q|m d w r q|s c|cs|sh f|].
  all: try (cbn [cov_prog] in H; injection H as <-; cbn [ceval]).
  - apply expquad_v.
  - cbn [pval]. now rewrite pproj_val, pexp_len_val.
  - cbn [pval]. now rewrite !pproj_val, pexp_len_val.
  - apply explap_val.
  - cbn [pval]. rewrite !pbsum_val, pexp_scale_val. reflexivity.
  - destruct r; cbn [pval]; rewrite !pproj_val, expquad_v, explap_val; reflexivity.
  - exact (f_equal (fun f => f e) (matern_val m p H)).
  - cbn [pval]. now rewrite mt_poly_val, mt_exp_val, mt_proj_val.
  - cbn [pval]. now rewrite !mt_poly_val, mt_exp_val, !mt_proj_val.
  - cbn [pval]. now rewrite mt_poly_val, mt_exp_val.
  - cbn [pval]. now rewrite mt_poly_val, mt_exp_val.
  - cbn [pval]. now rewrite mt_poly_val, mt_exp_val.
  - cbn [pval]. now rewrite mt_poly_val, mt_exp_val, mt_proj_val.
  - cbn [cov_prog] in H. destruct (cov_prog c) as [q|] eqn:E; [|discriminate]. injection H as <-. cbn [pval ceval]. rewrite (IH c q); auto. cbn [csize] in Hn. lia.
  - rewrite cov_prog_sum in H. destruct (cprogs cs) as [ps|] eqn:E; [|discriminate]. cbn [bind] in H. rewrite (preduce_val e ps p H). cbn [ceval]. apply cprogs_in in E. f_equal.
    assert (L : forall c, In c cs -> (csize c <= n)%nat) by (intros c Hc; apply csize_in in Hc; lia). clear Hn H. induction E as [|c q cs ps Hq E IE]; [reflexivity|]. cbn [map]. f_equal; [apply IH; auto; apply L; now left|].
    apply IE. intros c' Hc'. apply L. now right.
  - discriminate.
  - discriminate.
Qed.
Lemma scales_in cs c : scales (CSum cs) -> In c cs -> scales c.
Proof. cbn [scales]. induction cs as [|d cs IH]; intros H; [contradiction|]. destruct H as [H1 H2]. intros [->|Hc]; auto. Qed.
Lemma materns_in cs m : In m (materns (CSum cs)) <-> exists c, In c cs /\ In m (materns c).
Proof.
  cbn [materns]. induction cs as [|d cs IH]; [split; [contradiction|intros (c & [] & _)]|]. rewrite in_app_iff, IH. split.
  - intros [H|(c & H1 & H2)]; [exists d; split; [now left|exact H]|exists c; split; [now right|exact H2]].
  - intros (c & [->|H1] & H2); [now left|right; eauto].
Qed.
(** Programs are regular where no Matérn covariance function is at its singularity; they can always be
    evaluated. *)
Lemma cov_all (P : prog -> Prop) e : (forall p q, P p -> P q -> P (PAdd p q) /\ P (PSub p q) /\ P (PMul p q)) -> (forall p, P p -> P (PNeg p) /\ P (PExp p)) -> (forall p, reg e p -> P p) ->
  (forall cs x, P x -> P (horner_prog cs x)) ->
  forall n c p, (csize c <= n)%nat -> cov_prog c = Ok p -> scales c -> (forall m, In m (materns c) -> P (mt_r m)) -> P p.
Proof.
  intros HA HN HR HH. assert (M : forall p q, P p -> P q -> P (PMul p q)) by (intros; now apply HA). assert (S : forall p q, P p -> P q -> P (PSub p q)) by (intros; now apply HA).
  assert (K : forall x, P (PCst x)) by (intros; apply HR; exact I).
  assert (EX : forall m, P (mt_r m) -> P (mt_exp m)) by (intros m H; apply HN, HN, H).
  assert (PO : forall m q, P (mt_r m) -> P (mt_poly m q)) by (intros m q H; now apply HH).
  assert (PR : forall m a, P (mt_proj m a)) by (intros m a; apply HR, mt_proj_reg).
  assert (PP : forall sh a, P (pproj sh a)) by (intros; apply HR, pproj_reg).
  induction n as [|n IH]; intros c p Hn H Sc Mt; [destruct c; cbn [csize] in Hn; lia|].
  destruct c as [c|c d r|c d0 d1|c w r|c w0 w1|c d w r|m|m d r q|m d0 d1 a b|m d0 d1 q|m w r q|m w0 w1 q|m d w r q|s c|cs|sh f|].
  all: try (cbn [materns] in Mt; specialize (Mt m (or_introl eq_refl))).
  all: try (cbn [cov_prog] in H; injection H as <-).
  - apply HR, expquad_reg.
  - apply M; [apply PP|apply HR, pexp_len_reg, Sc].
  - apply M; [apply S; [apply K|apply M; apply PP]|apply HR, pexp_len_reg, Sc].
  - apply HR, explap_reg.
  - assert (Q : forall a, P (pbsum (eq_shape c) (fun i => PMul (PCst (a i)) (PPow (pdiff i) 2)))).
    { intros a. apply HR, pbsum_reg. intros i _. cbn. repeat split; auto. left. lia. }
    apply M; [|apply HR, pexp_scale_reg]. apply HA; [apply S; apply M; auto|apply M; auto].
  - assert (Q : P (PSub (PMul (PMul (PCst 2) (pproj (eq_shape c) (fun i => expdirlap_rescaled c d i * explap_winv c w i))) (expquad_prog c)) (PMul (pproj (eq_shape c) (expdirlap_rescaled c d)) (explap_prog c w)))).
    { apply S; apply M; auto; apply HR; [apply expquad_reg|apply explap_reg]. }
    destruct r; [now apply HN|exact Q].
  - cbn [cov_prog] in H. unfold matern_prog in H. destruct (mt_nu m); [|discriminate]. injection H as <-. apply M; [apply HH, Mt|now apply EX].
  - apply M; [apply M; auto|auto].
  - apply M; [apply S; apply M; auto|auto].
  - apply M; auto.
  - apply M; auto.
  - apply M; auto.
  - apply M; auto.
  - cbn [cov_prog] in H. destruct (cov_prog c) as [q|] eqn:E; [|discriminate]. injection H as <-. apply M; [auto|]. apply (IH c); auto. cbn [csize] in Hn. lia.
  - rewrite cov_prog_sum in H. destruct (cprogs cs) as [ps|] eqn:E; [|discriminate]. cbn [bind] in H. apply (preduce_all P) with (ps := ps); auto; [intros p1 p2 H1 H2; now apply HA|].
    apply cprogs_in in E.
    assert (L : forall c, In c cs -> (csize c <= n)%nat /\ scales c /\ forall m, In m (materns c) -> P (mt_r m)).
    { intros c Hc. split; [apply csize_in in Hc; lia|]. split; [now apply (scales_in cs)|]. intros m Hm. apply Mt, materns_in. eauto. }
    clear Hn H Sc Mt. induction E as [|c q cs ps Hq E IE]; intros x Hx; [contradiction|]. destruct Hx as [->|Hx]; [destruct (L c (or_introl eq_refl)) as (L1 & L2 & L3); now apply (IH c)|].
    apply IE; auto. intros c' Hc'. apply L. now right.
  - discriminate.
  - discriminate.
Qed.
Lemma cov_reg c p e : cov_prog c = Ok p -> scales c -> (forall m, In m (materns c) -> apart (mt_shape m) e) -> reg e p.
Proof.
  intros H Sc Mt. assert (Mt' : forall m, In m (materns c) -> reg e (mt_r m)).
  { intros m Hm. apply mt_r_reg; [|now apply Mt]. clear Mt H p. remember (csize c) as n eqn:En. assert (Hn : (csize c <= n)%nat) by lia. clear En. revert c Hn Sc Hm.
    induction n as [|n IH]; intros c Hn Sc Hm; [destruct c; cbn [csize] in Hn; lia|].
    destruct c; try (cbn [materns] in Hm; destruct Hm as [<-|[]]; exact Sc); try contradiction.
    - apply (IH c); auto. cbn [csize] in Hn. lia.
    - apply materns_in in Hm as (c & Hc & Hm). apply (IH c); auto; [apply csize_in in Hc; lia|now apply (scales_in cs)]. }
  apply (cov_all (reg e) e) with (n := csize c) (c := c); auto.
  - intros p1 p2 H1 H2. cbn. auto.
  - intros cs x Hx. now apply horner_reg.
Qed.
Lemma cov_fine c p e : cov_prog c = Ok p -> scales c -> fine e p.
Proof.
  intros H Sc. apply (cov_all (fine e) e) with (n := csize c) (c := c); auto.
  - intros p1 p2 H1 H2. cbn. auto.
  - apply reg_fine.
  - intros cs x Hx. now apply fine_horner.
  - intros m _. apply mt_r_fine.
Qed.

(** * Operators *)
Lemma derivs_ext (V : points -> Prop) : (forall e b v, V e -> locally 0 (fun t => V (move e b t v))) ->
  forall ds f g, (forall e, V e -> f e = g e) -> forall e, V e -> derivs ds f e = derivs ds g e.
Proof.
  intros O. induction ds as [|[b v] ds IH]; intros f g H e He; [now apply H|]. cbn [derivs fold_left]. apply IH; [|exact He]. intros e' He'. unfold along. cbn [fst snd].
  apply Derive_ext_loc. generalize (O e' b v He'). apply filter_imp. intros t Ht. now apply H.
Qed.
Lemma op_ext (V : points -> Prop) : (forall e b v, V e -> locally 0 (fun t => V (move e b t v))) ->
  forall d b f g, (forall e, V e -> f e = g e) -> forall e, V e -> op_deriv d b f e = op_deriv d b g e.
Proof.
  intros O d b f g H e He. destruct d; cbn [op_deriv]; try (now apply (derivs_ext V)). f_equal. apply map_ext. intros i. f_equal. now apply (derivs_ext V).
Qed.
Lemma ops_ext (V : points -> Prop) : (forall e b v, V e -> locally 0 (fun t => V (move e b t v))) ->
  forall ops f g, (forall e, V e -> f e = g e) -> forall e, V e -> ops_deriv ops f e = ops_deriv ops g e.
Proof.
  intros O. induction ops as [|[d a] ops IH]; intros f g H e He; [now apply H|]. cbn [ops_deriv]. apply IH; [|exact He]. intros e' He'. now apply (op_ext V).
Qed.
Lemma reg_iterate e ds p : reg e p -> reg e (iterate p ds).
Proof. revert p. induction ds as [|[b v] ds IH]; intros p H; [exact H|]. apply (IH (pjvp b p v)). now apply reg_tangent. Qed.
Lemma iterate_val e ds p : reg e p -> pval e (iterate p ds) = derivs ds (fun e => pval e p) e.
Proof. intros H. destruct (regular_ok p ds e H) as [R _]. rewrite (run_reg e _ (reg_iterate e ds p H)) in R. now injection R. Qed.
Lemma factor_dirs b a fs p : factorize_first_order a = Ok fs ->
  fold_left (fun df f => pjvp b df (mi_dir f)) fs p = iterate p (flat_map (fun '(i, n) => repeat (b, unit_vec i) n) (combine (all_indices (mi_shape a)) (mi_arr a))).
Proof.
  unfold factorize_first_order, composite_of. destruct (flat_map _ _) as [|f l] eqn:E; [discriminate|]. intros [= <-]. rewrite <- E. clear E f l. unfold iterate. revert p.
  assert (G : forall l, (forall i n, In (i, n) l -> valid_index (mi_shape a) i) -> forall p, fold_left (fun df f => pjvp b df (mi_dir f)) (flat_map (fun '(i, n) => repeat (unit_mi (mi_shape a) i 1) n) l) p =
     fold_left (fun q d => pjvp (fst d) q (snd d)) (flat_map (fun '(i, n) => repeat (b, unit_vec i) n) l) p).
  { induction l as [|[i n] l IH]; intros H p; [reflexivity|]. cbn [flat_map]. rewrite !fold_left_app. assert (V : valid_index (mi_shape a) i) by (apply (H i n); now left).
    rewrite IH by (intros; apply (H i0 n0); now right). f_equal. clear -V. revert p. induction n as [|n IH]; intros p; [reflexivity|]. cbn [repeat fold_left fst snd]. rewrite mi_dir_unit by exact V. apply IH. }
  apply G. intros i n Hi. apply in_combine_l in Hi. now apply all_indices_spec.
Qed.
Lemma ad_op_ok d a p q e : ad_op d a p = Ok q -> reg e p -> reg e q /\ pval e q = op_deriv d (negb (a =? 0)%nat) (fun e => pval e p) e.
Proof.
  intros H Hp. set (b := negb (a =? 0)%nat). destruct d as [al|al|bb sh w|sh v]; cbn [ad_op] in H; fold b in H.
  - destruct (factorize_first_order al) as [fs|] eqn:E; [|discriminate]. injection H as <-. rewrite (factor_dirs b al fs p E). split; [now apply reg_iterate|]. now apply iterate_val.
  - discriminate.
  - injection H as <-. split.
    + apply psum_reg. intros x Hx. apply in_map_iff in Hx as (i & <- & _). split; [exact I|]. now apply reg_tangent, reg_tangent.
    + rewrite psum_val, map_map. cbn [op_deriv]. f_equal. apply map_ext. intros i. cbn [pval]. f_equal. exact (iterate_val e [(b, unit_vec i); (b, unit_vec i)] p Hp).
  - injection H as <-. split; [now apply reg_tangent|]. exact (iterate_val e [(b, v)] p Hp).
Qed.
Lemma ad_ops_ok : forall ops p q e, ad_ops ops p = Ok q -> reg e p -> reg e q /\ pval e q = ops_deriv ops (fun e => pval e p) e.
Proof.
  induction ops as [|[d a] ops IH]; intros p q e H Hp; cbn [ad_ops] in H; [injection H as <-; auto|]. destruct (ad_op d a p) as [p'|] eqn:E; [|discriminate]. cbn [bind] in H.
  destruct (ad_op_ok d a p p' e E Hp) as [H1 _]. destruct (IH p' q e H H1) as [H2 H3]. split; [exact H2|]. rewrite H3. cbn [ops_deriv].
  apply (ops_ext (fun e => reg e p) (fun e b v => reg_near e b v p)); [|exact Hp]. intros e' He'. now apply ad_op_ok.
Qed.

(** * NaN *)
Section NanCov.
Variables (m : matern) (b : bool) (v : array).
Notation bad p := (exists g, tangent b v p = Some g /\ nan (mt_shape m) (mt_scale m) g).
Lemma bad_mul1 p q : bad p -> bad (PMul p q).
Proof. intros (g & H & G). cbn [tangent]. rewrite H. destruct (tangent b v q); eexists; (split; [reflexivity|]); [now apply nan_add1, nan_mul1|now apply nan_mul1]. Qed.
Lemma bad_mul2 p q : bad q -> bad (PMul p q).
Proof. intros (g & H & G). cbn [tangent]. rewrite H. destruct (tangent b v p); eexists; (split; [reflexivity|]); [now apply nan_add2, nan_mul2|now apply nan_mul2]. Qed.
Lemma bad_add1 p q : bad p -> bad (PAdd p q).
Proof. intros (g & H & G). cbn [tangent]. rewrite H. destruct (tangent b v q); eexists; (split; [reflexivity|]); [now apply nan_add1|exact G]. Qed.
Lemma bad_add2 p q : bad q -> bad (PAdd p q).
Proof. intros (g & H & G). cbn [tangent]. rewrite H. destruct (tangent b v p); eexists; (split; [reflexivity|]); [now apply nan_add2|exact G]. Qed.
Hypothesis ne : exists i, valid_index (mt_shape m) i.
Lemma bad_exp : bad (mt_exp m).
Proof. destruct (r_tangent (mt_shape m) (mt_scale m) ne b v) as (g & H & G). unfold mt_exp, mt_r. cbn [tangent]. rewrite H. eexists. split; [reflexivity|]. now apply nan_mul1, nan_neg. Qed.
Lemma bad_reduce ps p q : preduce ps = Ok p -> In q ps -> bad q -> bad p.
Proof.
  intros H Hq B. destruct ps as [|p0 ps]; [discriminate|]. injection H as <-. assert (X : bad p0 \/ In q ps) by (destruct Hq as [->|]; auto). clear Hq. revert p0 X.
  induction ps as [|p1 ps IH]; intros p0 [X|X]; [exact X|contradiction| |]; cbn [fold_left]; apply IH.
  - left. now apply bad_add1.
  - destruct X as [->|X]; [left; now apply bad_add2|now right].
Qed.
Lemma cov_bad : forall n c p, (csize c <= n)%nat -> cov_prog c = Ok p -> In m (materns c) -> bad p.
Proof.
  induction n as [|n IH]; intros c p Hn H Hm; [destruct c; cbn [csize] in Hn; lia|].
  destruct c as [c|c d r|c d0 d1|c w r|c w0 w1|c d w r|m'|m' d r q|m' d0 d1 a' b'|m' d0 d1 q|m' w r q|m' w0 w1 q|m' d w r q|s c|cs|sh f|]; try contradiction.
  all: try (cbn [materns] in Hm; destruct Hm as [->|[]]).
  all: try (cbn [cov_prog] in H; injection H as <-).
  - exact (matern_nan m p H ne b v).
  - apply bad_mul1, bad_mul2, bad_exp.
  - apply bad_mul2, bad_exp.
  - apply bad_mul2, bad_exp.
  - apply bad_mul1, bad_mul2, bad_exp.
  - apply bad_mul1, bad_mul2, bad_exp.
  - apply bad_mul1, bad_mul1, bad_exp.
  - cbn [cov_prog] in H. destruct (cov_prog c) as [q|] eqn:E; [|discriminate]. injection H as <-. apply bad_mul2, (IH c); auto. cbn [csize] in Hn. lia.
  - rewrite cov_prog_sum in H. destruct (cprogs cs) as [ps|] eqn:E; [|discriminate]. cbn [bind] in H. apply cprogs_in in E. apply materns_in in Hm as (c & Hc & Hm).
    assert (X : exists q, In q ps /\ cov_prog c = Ok q).
    { clear -E Hc. induction E as [|c' q cs ps Hq E IE]; [contradiction|]. destruct Hc as [->|Hc]; [exists q; split; [now left|exact Hq]|]. destruct (IE Hc) as (x & X1 & X2). exists x. split; [now right|exact X2]. }
    destruct X as (q & X1 & X2). apply (bad_reduce ps p q H X1). apply (IH c); auto. apply csize_in in Hc. lia.
Qed.
End NanCov.
