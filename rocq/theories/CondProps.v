(** C20-C24: conditioning Gaussian processes. *)
From mathcomp Require Import all_ssreflect all_algebra.
From Coq Require Import Permutation.
From Verif Require Import Base Block2Model Block2Spec MatPD Block2Proofs Block2Props NormalModel NormalSpec NormalProofs
  CondModel CondSpec CondProofs CondProofs2 CondProofs3 CondPoint.
Set Implicit Arguments. Unset Strict Implicit. Unset Printing Implicit Defensive.
Import GRing.Theory Num.Theory.
Local Open Scope ring_scope.
Arguments from_observations : simpl never.
Arguments condition_on : simpl never.

Section Props.
Variables (F : realFieldType) (X : Type).
Variable chol : forall n : nat, 'M[F]_n -> 'M[F]_n.
Hypothesis cholP : chol_spec chol.
Variable tri : bool.
Variables (g : gp F X) (Sf : (fn F X -> F) -> Prop) (So : funop F X -> Prop).
Hypothesis ad : admissible (gmean g) (gcov g) Sf So.
Notation m := (gmean g).
Notation k := (gcov g).

Lemma from_pinv o : good_event Sf So (Cond o) -> dgram k (data_of id o) \in unitmx ->
  exists2 s, from_observations g o = Ok s & pinv g Sf So (Posterior s) (summarise [:: Cond o]).
Proof.
move=> G U; have [p [R I _ _]] := run_spec cholP tri (es := [:: Cond o]) ad (conj G Logic.I) U.
move: R; rewrite [run _ _ _ _]/(bind (bind (from_observations g o) (fun s => Ok (Posterior s))) (fun p => Ok p)).
by case: (from_observations g o) => //= s [Ep]; rewrite -Ep in I; exists s.
Qed.

(** ** C20 *)
Lemma posterior_lemma o : good_event Sf So (Cond o) -> dgram k (data_of id o) \in unitmx ->
  exists s, [/\ from_observations g o = Ok s,
    forall x, c_mean s x = post_mean m k id (data_of id o) x,
    forall x y, c_cov s x (Some y) = Ok (post_cov k id (data_of id o) x y) &
    forall x, c_cov s x None = Ok (post_cov k id (data_of id o) x x)].
Proof.
move=> G U; have [s Es I] := from_pinv G U; exists s; split=> // [x|x y|x].
- exact: (pinv_mean x I).
- exact: (pinv_cov x (Some y) I).
- exact: (pinv_cov x None I).
Qed.
(** Posterior mean and covariance after one batch of data. *)
Theorem C20_posterior : forall o, good_event Sf So (Cond o) -> dgram k (data_of id o) \in unitmx ->
  exists s, [/\ from_observations g o = Ok s,
    forall x, c_mean s x = post_mean m k id (data_of id o) x,
    forall x y, c_cov s x (Some y) = Ok (post_cov k id (data_of id o) x y) &
    forall x, c_cov s x None = Ok (post_cov k id (data_of id o) x x)].
Proof. exact: posterior_lemma. Qed.

Lemma at_points n (xs : 'I_n -> X) (Y : 'cV[F]_n) b : possemidef (noise_covm b) ->
  let K := kmat k xs xs + noise_covm b in K \in unitmx ->
  exists s, [/\ from_observations g (point_obs xs Y b) = Ok s,
    forall x, c_mean s x =
      m x + (kmat k (fun _ : 'I_1 => x) xs *m invmx K *m (Y - \col_i m (xs i) - noise_meanv b)) 0 0 &
    forall x y, c_cov s x (Some y) =
      Ok (k x y - (kmat k (fun _ : 'I_1 => x) xs *m invmx K *m kmat k xs (fun _ : 'I_1 => y)) 0 0)].
Proof.
move=> PN K U; set o := point_obs xs Y b.
have EK : dgram k (data_of id o) = K.
  by rewrite /dgram /=; congr (_ + _); apply/matrixP=> i j; rewrite !mxE.
have G : good_event Sf So (Cond o).
  by split=> //= i; apply: (ad_same ad (ad_eval ad (xs i))) => f; rewrite /component mxE.
rewrite -EK in U; have [s [Es Hm Hc _]] := posterior_lemma G U.
have EC x : dcross k id (data_of id o) x = kmat k (fun _ : 'I_1 => x) xs by apply/rowP=> j; rewrite !mxE.
have EC' x : (dcross k id (data_of id o) x)^T = kmat k xs (fun _ : 'I_1 => x).
  by apply/colP=> j; rewrite !mxE (k_sym ad).
exists s; split=> // [x|x y]; first by rewrite Hm /post_mean EK EC.
by rewrite Hc /post_cov EK EC EC'.
Qed.
(** The same for observations at points, as in the textbooks. *)
Theorem C20_at_points : forall n (xs : 'I_n -> X) (Y : 'cV[F]_n) b, possemidef (noise_covm b) ->
  let K := kmat k xs xs + noise_covm b in K \in unitmx ->
  exists s, [/\ from_observations g (point_obs xs Y b) = Ok s,
    forall x, c_mean s x =
      m x + (kmat k (fun _ : 'I_1 => x) xs *m invmx K *m (Y - \col_i m (xs i) - noise_meanv b)) 0 0 &
    forall x y, c_cov s x (Some y) =
      Ok (k x y - (kmat k (fun _ : 'I_1 => x) xs *m invmx K *m kmat k xs (fun _ : 'I_1 => y)) 0 0)].
Proof. exact: at_points. Qed.

Lemma is_cond o q (xs : 'I_q -> X) s : good_event Sf So (Cond o) -> dgram k (data_of id o) \in unitmx ->
  from_observations g o = Ok s -> exists2 C, c_cov_linop s xs xs = Ok C &
  is_conditional (Normal (\col_i m (xs i)) (kmat k xs xs)) (o_L o m + noise_meanv (o_b o))
    (\matrix_(i, j) o_L o (fun x => o_L o (k x) j 0) i 0 + noise_covm (o_b o))
    (\matrix_(i, j) o_L o (k (xs i)) j 0) (o_Y o) (Normal (\col_i c_mean s (xs i)) C).
Proof.
move=> G U Es; have [s' Es' I] := from_pinv G U; move: Es; rewrite Es' => -[Ess]; move: I; rewrite Ess => I.
eexists; first exact: (linop_ok xs xs I).
set N : 'M[F]_(o_dim o) := \matrix_(i, j) _ + _; have EN : N = dgram k (data_of id o) by [].
set C : 'M[F]_(q, o_dim o) := \matrix_(i, j) _; have [HL HN] := G.
have [SN _] : possemidef N by rewrite EN; apply: (dgram_semi ad).
have UN : N \in unitmx by rewrite EN.
have SI : (invmx N)^T = invmx N by rewrite trmx_inv SN.
have RC i : row i C = dcross k id (data_of id o) (xs i) by apply/rowP=> j; rewrite !mxE.
exists (C *m invmx N); rewrite mulmxKV //; split=> /=; first by rewrite subrr.
  apply/colP=> i; have HM : c_mean s (xs i) = _ := pinv_mean (xs i) I; rewrite mxE HM /spec_mean /= /post_mean /= [RHS]mxE [in RHS]mxE -EN.
  congr (_ + _); rewrite -!mulmxA [RHS]entry_times RC mulmxA /dres /= opprD addrA.
  by rewrite mulmxA.
rewrite trmx_mul SI !mulmxA subrK; apply/matrixP=> i j; rewrite mxE mxBE entry_sandwich !RC [in RHS]mxE.
by rewrite /spec_cov /= /post_cov -EN.
Qed.
(** It is the conditional distribution of the joint normal distribution of the
    process at any points and the data. *)
Theorem C20_is_conditional : forall o q (xs : 'I_q -> X) s, good_event Sf So (Cond o) -> dgram k (data_of id o) \in unitmx ->
  from_observations g o = Ok s -> exists2 C, c_cov_linop s xs xs = Ok C &
  is_conditional (Normal (\col_i m (xs i)) (kmat k xs xs)) (o_L o m + noise_meanv (o_b o))
    (\matrix_(i, j) o_L o (fun x => o_L o (k x) j 0) i 0 + noise_covm (o_b o))
    (\matrix_(i, j) o_L o (k (xs i)) j 0) (o_Y o) (Normal (\col_i c_mean s (xs i)) C).
Proof. exact: is_cond. Qed.
Lemma linop_points o s q0 q1 (xs0 : 'I_q0 -> X) (xs1 : 'I_q1 -> X) : good_event Sf So (Cond o) ->
  dgram k (data_of id o) \in unitmx -> from_observations g o = Ok s ->
  exists2 C, c_cov_linop s xs0 xs1 = Ok C & forall i j, c_cov s (xs0 i) (Some (xs1 j)) = Ok (C i j).
Proof.
move=> G U Es; have [s' Es' I] := from_pinv G U; move: Es; rewrite Es' => -[Ess]; move: I; rewrite Ess => I.
eexists; first exact: (linop_ok xs0 xs1 I).
by move=> i j; rewrite mxE; apply: (pinv_cov (xs0 i) (Some (xs1 j)) I).
Qed.
(** Covariance operators hold the pointwise covariances. *)
Theorem C20_covariance_operator : forall o s q0 q1 (xs0 : 'I_q0 -> X) (xs1 : 'I_q1 -> X), good_event Sf So (Cond o) ->
  dgram k (data_of id o) \in unitmx -> from_observations g o = Ok s ->
  exists2 C, c_cov_linop s xs0 xs1 = Ok C & forall i j, c_cov s (xs0 i) (Some (xs1 j)) = Ok (C i j).
Proof. exact: linop_points. Qed.
Lemma interp o s : good_event Sf So (Cond o) -> dgram k (data_of id o) \in unitmx -> noise_covm (o_b o) = 0 ->
  from_observations g o = Ok s ->
  o_L o (c_mean s) = o_Y o - noise_meanv (o_b o) /\ functl_cgp (@o_L _ _ o) s = Normal (o_Y o - noise_meanv (o_b o)) 0.
Proof.
move=> G U HN Es; have [s' Es' I] := from_pinv G U; move: Es; rewrite Es' => -[Ess]; move: I; rewrite Ess => I.
have [HL _] := G; have H := interpolation ad HL HN U I; split=> //.
have Gs : sgood g Sf So (summarise [:: Cond o]) by exact: (sgood_steps (es := [:: Cond o]) ad (start_good g Sf So) (conj G Logic.I)).
have Pd : spd g (summarise [:: Cond o]) by apply: (sgood_pd ad).
have := functional_commutes ad I Pd HL (c := spec_cov g (summarise [:: Cond o])) (fun x y => pinv_cov x (Some y) I).
by rewrite /p_functl H => -[<-].
Qed.
(** Data without noise are reproduced, with certainty. *)
Theorem C20_noise_free_data : forall o s, good_event Sf So (Cond o) -> dgram k (data_of id o) \in unitmx ->
  noise_covm (o_b o) = 0 -> from_observations g o = Ok s ->
  o_L o (c_mean s) = o_Y o - noise_meanv (o_b o) /\ functl_cgp (@o_L _ _ o) s = Normal (o_Y o - noise_meanv (o_b o)) 0.
Proof. exact: interp. Qed.

Lemma posdef_block0 n p (A : 'M[F]_n) (B : 'M[F]_p) : posdef A -> posdef B -> posdef (block_mx A 0 0 B).
Proof.
move=> PA PB; rewrite -[X in block_mx A 0 X B]trmx0; apply: posdef_block => //.
by rewrite /schur_of mulmx0 subr0.
Qed.
Lemma posdef_add n (A B : 'M[F]_n) : possemidef A -> posdef B -> posdef (A + B).
Proof.
move=> [SA PA] [SB PB]; split; first by rewrite linearD /= SA SB.
by move=> v v0; rewrite /qform mulmxDr mulmxDl mxE; apply: ltr_paddl; [apply: PA | apply: PB].
Qed.
Definition snoisy (sm : summary F X) : Prop := if s_data sm is Some (existT n d) then posdef (d_N d) else True.
Lemma snoisy_steps es sm : snoisy sm -> noisy_events es -> snoisy (foldl (@s_step _ _) sm es).
Proof.
elim: es sm => [|e es IH] sm //= H [He Hes]; apply: IH Hes; case: e He => [o|D] //= Ho.
by rewrite /snoisy /=; case: sm H => [[[n d]|] E] //= H; apply: posdef_block0.
Qed.
Lemma noisy_unit es : good_events Sf So es -> noisy_events es -> spec_gram_unit g (summarise es).
Proof.
move=> G N; have S := sgood_steps ad (start_good g Sf So) G; have P : snoisy (summarise es) by apply: snoisy_steps.
rewrite -/(summarise _) in S; move: S P; rewrite /spec_gram_unit /snoisy /sgood; case: (s_data _) => [[n d]|] // [_ [HL _]] P.
apply: posdef_unit; rewrite dgramE; apply: posdef_add P; exact: (ad_psd ad (ls := fun i => component (d_L d) i)).
Qed.
(** With noisy data the Gram matrix is always invertible: conditioning never fails. *)
Theorem C20_noisy_data : forall es, good_events Sf So es -> noisy_events es -> spec_gram_unit g (summarise es).
Proof. exact: noisy_unit. Qed.

(** The combination of functionals with coefficients [v]. *)
Definition combination n (L : functl F X n) (v : 'cV[F]_n) (f : fn F X) : F := \sum_i v i 0 * L f i 0.
Lemma gram_qform n (L : functl F X n) v z : (forall i, Sf (component L i)) ->
  qform (xgram g L L) v = 0 -> combination L v (k z) = 0.
Proof.
move=> HL E.
pose Q : functl F X 1 := fun f => const_mx (f z).
have HQ : forall i, Sf (component Q i) by move=> i; apply: (ad_same ad (ad_eval ad z)) => f; rewrite /component mxE.
have HP : possemidef (xgram g (fun f => col_mx (L f) (Q f)) (fun f => col_mx (L f) (Q f))).
  exact: (ad_psd ad (ls := fun i => component (fun f => col_mx (L f) (Q f)) i) (okL_col ad HL HQ)).
have EB : xgram g (fun f => col_mx (L f) (Q f)) (fun f => col_mx (L f) (Q f)) = block_mx (xgram g L L) (xgram g L Q) (xgram g Q L) (xgram g Q Q).
  by rewrite xgram_col !(xgram_row ad).
rewrite EB in HP.
have E0 : qform (block_mx (xgram g L L) (xgram g L Q) (xgram g Q L) (xgram g Q Q)) (col_mx v 0) = 0.
  by rewrite /qform tr_col_mx trmx0 mul_row_block !mul0mx !addr0 mul_row_col mulmx0 addr0.
have := possemidef_kernel HP E0; rewrite mul_block_col !mulmx0 !addr0 -[0]col_mx0 => /eq_col_mx [_ K0].
have := congr1 (fun M : 'cV_1 => M 0 0) K0; rewrite !mxE => K1; rewrite -[RHS]K1.
by apply: eq_bigr => i _; rewrite !mxE mulrC.
Qed.
Lemma combination_reached n (d : data F X n) v : okL Sf (d_L d) -> reached m k Sf So (fun x => combination (d_L d) v (k x)).
Proof.
move=> HL; apply: (reached_sum (f := fun j x => v j 0 * d_L d (k x) j 0)) => j.
exact: (reached_scale _ (reached_cov m k So (HL j))).
Qed.
Lemma gram_lemma n (d : data F X n) : okL Sf (d_L d) -> possemidef (d_N d) ->
  (forall v, (forall z, combination (d_L d) v (k z) = 0) -> v = 0) -> dgram k d \in unitmx.
Proof.
move=> HL PN H; have PG := ad_psd ad (ls := fun i => component (d_L d) i) HL.
rewrite -unitmx_tr -row_free_unit; apply: inj_row_free => u uG.
have E : qform (dgram k d) u^T = 0 by rewrite /qform -mulmxA -[dgram k d *m _]trmxK trmx_mul trmxK uG trmx0 mulmx0 mxE.
have E0 : qform (xgram g (d_L d) (d_L d)) u^T = 0.
  move: E; rewrite dgramE /qform mulmxDr mulmxDl mxE => E; have := PG.2 u^T; have := PN.2 u^T; rewrite /qform => N0 G0.
  by apply/eqP; rewrite Order.POrderTheory.eq_le G0 andbT -E ler_addl.
by apply: trmx_inj; rewrite trmx0; apply: H => z; apply: gram_qform.
Qed.
Lemma gram_iff n (d : data F X n) : okL Sf (d_L d) -> d_N d = 0 ->
  (dgram k d \in unitmx <-> forall v, (forall z, combination (d_L d) v (k z) = 0) -> v = 0).
Proof.
move=> HL N0; split=> [U v H|]; last by apply: gram_lemma => //; rewrite N0; apply: possemidef0.
suff E : dgram k d *m v = 0 by rewrite -(mulKmx U v) E mulmx0.
apply/colP=> i; rewrite dgramE N0 addr0 !mxE.
have [He Ha Hs] := ad_lin ad (HL i).
transitivity (component (d_L d) i (fun x => \sum_j v j 0 * d_L d (k x) j 0)).
  rewrite (lin_sum (f := fun j x => v j 0 * d_L d (k x) j 0) (ad_lin ad (HL i))).
    by apply: eq_bigr => j _; rewrite !mxE Hs; [rewrite mulrC | exact: (reached_cov m k So (HL j))].
  by move=> j; exact: (reached_scale _ (reached_cov m k So (HL j))).
rewrite (He _ (fun x => 0 * m x)) ?(Hs 0 m) ?mul0r //; first exact: reached_mean.
by move=> x; rewrite mul0r; apply: H.
Qed.
(** Without noise it is invertible if and only if no combination of the observed
    functionals vanishes on all sections of the prior covariance function. *)
Theorem C20_gram_invertible : forall o, good_event Sf So (Cond o) ->
  (forall v, (forall z, combination (@o_L _ _ o) v (k z) = 0) -> v = 0) -> dgram k (data_of id o) \in unitmx.
Proof. by move=> o [HL HN] H; apply: gram_lemma. Qed.
Theorem C20_gram_noise_free : forall o, good_event Sf So (Cond o) -> noise_covm (o_b o) = 0 ->
  (dgram k (data_of id o) \in unitmx <-> forall v, (forall z, combination (@o_L _ _ o) v (k z) = 0) -> v = 0).
Proof. by move=> o [HL HN] N0; apply: gram_iff. Qed.

(** ** C21 *)
Lemma good_batch o os : good_events Sf So [seq Cond o | o <- o :: os] -> good_event Sf So (Cond (batch o os)).
Proof.
elim: os o => [|o2 os IH] o /=; first by case.
move=> [[HL HN] [[HL2 HN2] H]]; apply: (IH (stack_obs o o2)); split=> //=; split=> /=; first exact: (okL_col ad HL HL2).
exact: semi_block0.
Qed.
Lemma batch_summary (o : obs F X) os : summarise [seq Cond o | o <- o :: os] = summarise [:: Cond (batch o os)].
Proof.
elim: os o => [|o2 os IH] o //; rewrite -[batch _ _]/(batch (stack_obs o o2) os) -IH //.
Qed.
Lemma incremental o os : good_events Sf So [seq Cond o | o <- o :: os] ->
  spec_gram_unit g (summarise [seq Cond o | o <- o :: os]) ->
  exists s1 s2, [/\ run chol tri (Plain g) [seq Cond o | o <- o :: os] = Ok (Posterior s1),
    from_observations g (batch o os) = Ok s2,
    existT (fun n => 'cV[F]_n) (c_dim s1) (c_w s1) = existT (fun n => 'cV[F]_n) (c_dim s2) (c_w s2),
    c_mean s1 =1 c_mean s2 & forall x y, c_cov s1 x y = c_cov s2 x y].
Proof.
move=> G U; have [p1 [R1 I1 M1 C1]] := run_spec cholP tri ad G U.
rewrite batch_summary in U I1 M1 C1; have [s2 E2 I2] := from_pinv (good_batch G) U.
case: p1 R1 I1 M1 C1 => [g'|s1] R1 I1 M1 C1 //; exists s1, s2; split=> //.
- by have := pinv_weights I1; rewrite -(pinv_weights I2) => -[].
- by move=> x; rewrite -[LHS]/(p_mean (Posterior s1) x) M1 -(pinv_mean x I2).
- by move=> x y; rewrite -[LHS]/(p_cov (Posterior s1) x y) C1 -(pinv_cov x y I2).
Qed.
(** One block after the other or all blocks at once: the same weights, mean and
    covariance. *)
Theorem C21_incremental_is_batch : forall o os, good_events Sf So [seq Cond o | o <- o :: os] ->
  spec_gram_unit g (summarise [seq Cond o | o <- o :: os]) ->
  exists s1 s2, [/\ run chol tri (Plain g) [seq Cond o | o <- o :: os] = Ok (Posterior s1),
    from_observations g (batch o os) = Ok s2,
    existT (fun n => 'cV[F]_n) (c_dim s1) (c_w s1) = existT (fun n => 'cV[F]_n) (c_dim s2) (c_w s2),
    c_mean s1 =1 c_mean s2 & forall x y, c_cov s1 x y = c_cov s2 x y].
Proof. exact: incremental. Qed.
Lemma lazy_lemma os s : good_events Sf So [seq Cond o | o <- os] ->
  spec_gram_unit g (summarise [seq Cond o | o <- os]) ->
  run chol tri (Plain g) [seq Cond o | o <- os] = Ok (Posterior s) -> lazy_weights s = Ok (c_w s).
Proof.
move=> G U R; have [p [R' I _ _]] := run_spec cholP tri ad G U; move: R'; rewrite R => -[Ep].
rewrite -{p}Ep in I; exact: (lazy_ok I (lz_run (p := Plain g) (dd := None) erefl R)).
Qed.
(** Weights recomputed from the stored observations are the incrementally updated
    ones. *)
Theorem C21_recomputed_weights : forall os s, good_events Sf So [seq Cond o | o <- os] ->
  spec_gram_unit g (summarise [seq Cond o | o <- os]) ->
  run chol tri (Plain g) [seq Cond o | o <- os] = Ok (Posterior s) -> lazy_weights s = Ok (c_w s).
Proof. exact: lazy_lemma. Qed.

(** ** C22 *)
Lemma good_cat es1 es2 : good_events Sf So (es1 ++ es2) <-> good_events Sf So es1 /\ good_events Sf So es2.
Proof. by elim: es1 => [|e es1 IH] /=; [split=> [H|[]] | rewrite IH; split=> [[H [H1 H2]]|[[H1 H2] H3]]]. Qed.
Lemma good_perm os os' : Permutation os os' -> good_events Sf So [seq Cond o | o <- os] -> good_events Sf So [seq Cond o | o <- os'].
Proof.
elim=> {os os'} [|o os os' _ IH|o1 o2 os|os1 os2 os3 _ IH1 _ IH2] //=.
- by move=> [H1 H2]; split=> //; apply: IH.
- by move=> [H1 [H2 H3]].
- by move=> H; apply: IH2; apply: IH1.
Qed.
Lemma order es0 os os' es1 : Permutation os os' ->
  good_events Sf So (es0 ++ [seq Cond o | o <- os] ++ es1) ->
  spec_gram_unit g (summarise (es0 ++ [seq Cond o | o <- os] ++ es1)) ->
  exists p p', [/\ run chol tri (Plain g) (es0 ++ [seq Cond o | o <- os] ++ es1) = Ok p,
    run chol tri (Plain g) (es0 ++ [seq Cond o | o <- os'] ++ es1) = Ok p',
    p_mean p =1 p_mean p' & forall x y, p_cov p x y = p_cov p' x y].
Proof.
move=> H G U; have [p [R I M C]] := run_spec cholP tri ad G U.
have G' : good_events Sf So (es0 ++ [seq Cond o | o <- os'] ++ es1).
  move: G; rewrite !good_cat => -[H0 [H1 H2]]; split=> //; split=> //; exact: good_perm H1.
have S := sgood_steps ad (start_good g Sf So) G; rewrite -/(summarise _) in S; have P := sgood_pd ad S U.
have [SD SO] : same_data (s_data (summarise (es0 ++ [seq Cond o | o <- os] ++ es1)))
    (s_data (summarise (es0 ++ [seq Cond o | o <- os'] ++ es1))) /\
    s_op (summarise (es0 ++ [seq Cond o | o <- os] ++ es1)) = s_op (summarise (es0 ++ [seq Cond o | o <- os'] ++ es1)).
  rewrite /summarise !foldl_cat; case: (foldl _ (s_start F X) es0) => dd E.
  have := same_perm dd E H; set a := foldl _ _ _; set b := foldl _ _ _ => SD.
  have Ea : a = Summary (s_data a) E by rewrite -{1}[a]summary_eta foldl_cond_op.
  have Eb : b = Summary (s_data b) E by rewrite -{1}[b]summary_eta foldl_cond_op.
  by rewrite Ea Eb; apply: same_fold.
have ext (es : seq (event F X)) : summarise es = Summary (s_data (summarise es)) (s_op (summarise es)) by rewrite summary_eta.
rewrite ext SO in S P M C; have EB := ext (es0 ++ [seq Cond o | o <- os'] ++ es1).
have [|p' [R' I' M' C']] := run_spec cholP tri ad G'; first by rewrite EB; apply: (same_unit ad SD).
rewrite EB in M' C'; exists p, p'; split=> // [x|x y].
  by rewrite M M'; have [-> _] := same_spec ad x x SD S P.
by rewrite C C'; have [_ ->] := same_spec ad x (odflt x y) SD S P.
Qed.
(** The order of the observations does not matter, at any point of a history. *)
Theorem C22_order : forall es0 os os' es1, Permutation os os' ->
  good_events Sf So (es0 ++ [seq Cond o | o <- os] ++ es1) ->
  spec_gram_unit g (summarise (es0 ++ [seq Cond o | o <- os] ++ es1)) ->
  exists p p', [/\ run chol tri (Plain g) (es0 ++ [seq Cond o | o <- os] ++ es1) = Ok p,
    run chol tri (Plain g) (es0 ++ [seq Cond o | o <- os'] ++ es1) = Ok p',
    p_mean p =1 p_mean p' & forall x y, p_cov p x y = p_cov p' x y].
Proof. exact: order. Qed.

(** ** C23 *)
Lemma cov_matrix p es q (xs : 'I_q -> X) (C : 'M[F]_q) : good_events Sf So es -> spec_gram_unit g (summarise es) ->
  run chol tri (Plain g) es = Ok p -> (forall i j, p_cov p (xs i) (Some (xs j)) = Ok (C i j)) ->
  [/\ C = spec_covmx g (summarise es) xs, sgood g Sf So (summarise es) & spd g (summarise es)].
Proof.
move=> G U R H; have [p' [R' I M' C']] := run_spec cholP tri ad G U; move: R'; rewrite R => -[Ep].
have S := sgood_steps ad (start_good g Sf So) G; rewrite -/(summarise _) in S; have P := sgood_pd ad S U.
split=> //; apply/matrixP=> i j; rewrite mxE; by have := H i j; rewrite Ep C' => -[].
Qed.
Lemma covariance es p q (xs : 'I_q -> X) (C : 'M[F]_q) : good_events Sf So es -> spec_gram_unit g (summarise es) ->
  run chol tri (Plain g) es = Ok p -> (forall i j, p_cov p (xs i) (Some (xs j)) = Ok (C i j)) -> possemidef C.
Proof. by move=> G U R H; have [-> S P] := cov_matrix G U R H; apply: (spec_covmx_psd ad). Qed.
(** Covariance matrices of a conditioned process are covariance matrices. *)
Theorem C23_covariance : forall es p q (xs : 'I_q -> X) (C : 'M[F]_q), good_events Sf So es -> spec_gram_unit g (summarise es) ->
  run chol tri (Plain g) es = Ok p -> (forall i j, p_cov p (xs i) (Some (xs j)) = Ok (C i j)) -> possemidef C.
Proof. exact: covariance. Qed.
Lemma fold_back es es1 : good_events Sf So (es ++ es1) -> spec_gram_unit g (summarise (es ++ es1)) ->
  [/\ good_events Sf So es, good_events Sf So es1 & spec_gram_unit g (summarise es)].
Proof.
rewrite good_cat => -[G G1] U; split=> //; have S := sgood_steps ad (start_good g Sf So) G.
have S' := sgood_steps ad S G1; have U' : spec_gram_unit g (foldl (@s_step F X) (foldl (@s_step F X) (s_start F X) es) es1).
  by rewrite -foldl_cat.
have := spd_back ad S G1 (sgood_pd ad S' U'); rewrite -/(summarise es) /spec_gram_unit /spd.
by case: (s_data _) => [[n d]|] //; apply: posdef_unit.
Qed.
Lemma more_data es os p p' q (xs : 'I_q -> X) (C C' : 'M[F]_q) : good_events Sf So (es ++ [seq Cond o | o <- os]) ->
  spec_gram_unit g (summarise (es ++ [seq Cond o | o <- os])) ->
  run chol tri (Plain g) es = Ok p -> run chol tri (Plain g) (es ++ [seq Cond o | o <- os]) = Ok p' ->
  (forall i j, p_cov p (xs i) (Some (xs j)) = Ok (C i j)) -> (forall i j, p_cov p' (xs i) (Some (xs j)) = Ok (C' i j)) ->
  loewner C' C.
Proof.
move=> G U R R' H H'; have [G0 G1 U0] := fold_back G U.
have [-> S P] := cov_matrix G0 U0 R H; have [-> S' P'] := cov_matrix G U R' H'.
move: S' P'; rewrite /summarise foldl_cat => S' P'; exact: (spec_covmx_steps ad).
Qed.
(** More data never increase the uncertainty; with [es] empty, or consisting of
    operators, this compares with the prior. *)
Theorem C23_more_data : forall es os p p' q (xs : 'I_q -> X) (C C' : 'M[F]_q),
  good_events Sf So (es ++ [seq Cond o | o <- os]) ->
  spec_gram_unit g (summarise (es ++ [seq Cond o | o <- os])) ->
  run chol tri (Plain g) es = Ok p -> run chol tri (Plain g) (es ++ [seq Cond o | o <- os]) = Ok p' ->
  (forall i j, p_cov p (xs i) (Some (xs j)) = Ok (C i j)) -> (forall i j, p_cov p' (xs i) (Some (xs j)) = Ok (C' i j)) ->
  loewner C' C.
Proof. exact: more_data. Qed.

(** ** C24 *)
(** Any history of observations and operators: the posterior of the transformed
    process given all data, each datum a functional of the original process. *)
Theorem C24_history : forall es, good_events Sf So es -> spec_gram_unit g (summarise es) ->
  exists p, [/\ run chol tri (Plain g) es = Ok p,
    forall x, p_mean p x = spec_mean g (summarise es) x &
    forall x y, p_cov p x y = Ok (spec_cov g (summarise es) x (odflt x y))].
Proof. by move=> es G U; have [p [R _ M C]] := run_spec cholP tri ad G U; exists p. Qed.
Lemma functl_lemma es p q (L : functl F X q) (c : X -> X -> F) : good_events Sf So es -> spec_gram_unit g (summarise es) ->
  (forall i, Sf (component L i)) -> run chol tri (Plain g) es = Ok p -> (forall x y, p_cov p x (Some y) = Ok (c x y)) ->
  p_functl L p = Normal (L (p_mean p)) (\matrix_(i, j) L (fun x => L (c x) j 0) i 0).
Proof.
move=> G U HL R H; have [p' [R' I _ _]] := run_spec cholP tri ad G U; move: R'; rewrite R => -[Ep]; rewrite -Ep in I.
have S := sgood_steps ad (start_good g Sf So) G; rewrite -/(summarise _) in S; have P := sgood_pd ad S U.
exact: (functional_commutes ad I P HL H).
Qed.
(** A functional of a conditioned process has the mean and covariance obtained by
    applying the functional to its mean and covariance functions. *)
Theorem C24_functional : forall es p q (L : functl F X q) (c : X -> X -> F), good_events Sf So es -> spec_gram_unit g (summarise es) ->
  (forall i, Sf (component L i)) -> run chol tri (Plain g) es = Ok p -> (forall x y, p_cov p x (Some y) = Ok (c x y)) ->
  p_functl L p = Normal (L (p_mean p)) (\matrix_(i, j) L (fun x => L (c x) j 0) i 0).
Proof. exact: functl_lemma. Qed.
Lemma functl_formula o s q (L : functl F X q) : good_event Sf So (Cond o) -> dgram k (data_of id o) \in unitmx ->
  (forall i, Sf (component L i)) -> from_observations g o = Ok s ->
  let LkLa : 'M[F]_(q, o_dim o) := \matrix_(i, j) L (fun x => o_L o (k x) j 0) i 0 in
  let G := \matrix_(i, j) o_L o (fun x => o_L o (k x) j 0) i 0 + noise_covm (o_b o) in
  functl_cgp L s = Normal (L m + LkLa *m invmx G *m (o_Y o - o_L o m - noise_meanv (o_b o)))
    (\matrix_(i, j) L (fun x => L (k x) j 0) i 0 - LkLa *m invmx G *m LkLa^T).
Proof.
move=> Go U HL Es LkLa G; have [s' Es' I] := from_pinv Go U; move: Es; rewrite Es' => -[Ess]; move: I; rewrite Ess => I.
have [d [I' Ed]] := I; rewrite (functl_cgpE ad I' HL) /=; move: d Ed {I I'}; move: (c_dim s) => n d Ed; have [En] := Ed.
case: _ / (esym En) d Ed => d Ed.
have {Ed} -> : d = data_of id o by apply: (Eqdep_dec.inj_pair2_eq_dec _ PeanoNat.Nat.eq_dec (data F X)).
have -> : lcross g id (data_of id o) L = LkLa.
  by apply/matrixP=> i j; rewrite !mxE; apply: (sf_ext ad (HL i)) => x; rewrite mxE.
by [].
Qed.
(** In closed form after one batch. *)
Theorem C24_functional_formula : forall o s q (L : functl F X q), good_event Sf So (Cond o) ->
  dgram k (data_of id o) \in unitmx -> (forall i, Sf (component L i)) -> from_observations g o = Ok s ->
  let LkLa : 'M[F]_(q, o_dim o) := \matrix_(i, j) L (fun x => o_L o (k x) j 0) i 0 in
  let G := \matrix_(i, j) o_L o (fun x => o_L o (k x) j 0) i 0 + noise_covm (o_b o) in
  functl_cgp L s = Normal (L m + LkLa *m invmx G *m (o_Y o - o_L o m - noise_meanv (o_b o)))
    (\matrix_(i, j) L (fun x => L (k x) j 0) i 0 - LkLa *m invmx G *m LkLa^T).
Proof. exact: functl_formula. Qed.
Lemma op_lemma es p p' D (c : X -> X -> F) : good_events Sf So es -> spec_gram_unit g (summarise es) -> So D ->
  run chol tri (Plain g) es = Ok p -> (forall x y, p_cov p x (Some y) = Ok (c x y)) ->
  step chol tri p (Appl D) = Ok p' ->
  (forall x, p_mean p' x = D (p_mean p) x) /\ (forall x y, p_cov p' x (Some y) = Ok (D (fun x' => D (c x') y) x)).
Proof.
move=> G U HD R H Hs; have [p1 [R' I _ _]] := run_spec cholP tri ad G U; move: R'; rewrite R => -[Ep]; rewrite -Ep in I.
have S := sgood_steps ad (start_good g Sf So) G; rewrite -/(summarise _) in S; have P := sgood_pd ad S U.
exact: (operator_commutes cholP ad I S P HD H Hs).
Qed.
(** An operator applied to a conditioned process acts on its mean and on both
    arguments of its covariance function. *)
Theorem C24_operator : forall es p p' D (c : X -> X -> F), good_events Sf So es -> spec_gram_unit g (summarise es) -> So D ->
  run chol tri (Plain g) es = Ok p -> (forall x y, p_cov p x (Some y) = Ok (c x y)) ->
  step chol tri p (Appl D) = Ok p' ->
  (forall x, p_mean p' x = D (p_mean p) x) /\ (forall x y, p_cov p' x (Some y) = Ok (D (fun x' => D (c x') y) x)).
Proof. exact: op_lemma. Qed.
End Props.

(** ** The assumptions can be met *)
(** Any positive semi-definite covariance function, with all finite combinations of
    point evaluations and all operators given by finite stencils. *)
Theorem C20_points_admissible : forall (F : realFieldType) X (m : fn F X) (k : X -> fn F X), psd_kernel k ->
  admissible m k (@point_functl F X) (@stencil_op F X).
Proof. exact: point_admissible. Qed.

Section Example.
Variable R : rcfType.
(** Zero mean and covariance 1 + x y; the forward difference operator; observing
    f(1) = 3 and then the difference f(3) - f(2) with noise of variance 2. *)
Definition ex_gp : gp R R := GP (fun _ => 0) (fun x y => 1 + x * y).
Definition ex_diff : funop R R := fun f x => f (x + 1) - f x.
Definition ex_obs1 : obs R R := point_obs (fun _ : 'I_1 => 1) (const_mx 3%:R) None.
Definition ex_obs2 : obs R R := point_obs (fun _ : 'I_1 => 2%:R) (const_mx 1) (Some (Normal 0 2%:R%:M)).
Definition ex_history := [:: Cond ex_obs1; Appl ex_diff; Cond ex_obs2].
Lemma ex_psd : psd_kernel (gcov ex_gp).
Proof.
move=> n xs; pose A : 'M[R]_(2, n) := \matrix_(i, j) (if i == 0 then 1 else xs j).
have -> : \matrix_(i, j) gcov ex_gp (xs i) (xs j) = A^T *m A.
  by apply/matrixP=> i j; rewrite !mxE !big_ord_recl big_ord0 !mxE /= mulr1 addr0.
exact: gram_semi.
Qed.
Lemma ex_good : good_events (@point_functl R R) (@stencil_op R R) ex_history.
Proof.
split; [|split; [|split]] => //=.
- split; last exact: possemidef0.
  by move=> i; exists [:: (1, 1)] => f; rewrite /component /combo big_seq1 mxE mul1r.
- by move=> x; exists [:: (1, x + 1); (-1, x)] => f; rewrite /combo big_cons big_seq1 mul1r mulN1r.
- split; last by apply: scal_semi; rewrite ler0n.
  by move=> i; exists [:: (1, 2%:R)] => f; rewrite /component /combo big_seq1 mxE mul1r.
Qed.
Lemma ex_unit : spec_gram_unit ex_gp (summarise ex_history).
Proof.
change (is_true (dgram (gcov ex_gp) (stack (data_of id ex_obs1) (data_of ex_diff ex_obs2)) \in unitmx)).
have ad := point_admissible (gmean ex_gp) ex_psd.
have [[H1 _] [HD [[H2 _] _]]] := ex_good.
have H2' : okL (@point_functl R R) (d_L (data_of ex_diff ex_obs2)).
  by move=> i; apply: (ad_comp ad (H2 i)).
have Ek x y : ex_diff (gcov ex_gp x) y = x.
  by rewrite /ex_diff /= mulrDr mulr1 opprD addrACA subrr add0r addrAC subrr add0r.
have Ek' x y : ex_diff (gcov ex_gp^~ y) x = y.
  by rewrite /ex_diff /= mulrDl mul1r opprD addrACA subrr add0r addrAC subrr add0r.
have Ed (x : R) : ex_diff id x = 1 by rewrite /ex_diff addrAC subrr add0r.
have H1' : okL (@point_functl R R) (d_L (data_of id ex_obs1)) by exact: H1.
rewrite (dgram_stack ad H1' H2').
have -> : dgram (gcov ex_gp) (data_of id ex_obs1) = 2%:R%:M.
  by apply/matrixP=> i j; rewrite !ord1 !mxE /= mulr1 addr0.
have -> : dgram (gcov ex_gp) (data_of ex_diff ex_obs2) = 3%:R%:M.
  apply/matrixP=> i j; rewrite !ord1 !mxE /= !mulr1n.
  transitivity (ex_diff (fun x => ex_diff (gcov ex_gp x) 2%:R) 2%:R + 2%:R).
    by congr (_ + _); rewrite /ex_diff !mxE.
  transitivity (ex_diff id 2%:R + 2%:R); last by rewrite Ed mulrS.
  by congr (_ + _); rewrite [LHS]/ex_diff !Ek.
have -> : xgram ex_gp (d_L (data_of id ex_obs1)) (d_L (data_of ex_diff ex_obs2)) = 1%:M.
  by apply/matrixP=> i j; rewrite !ord1 !mxE /= Ek.
have -> : xgram ex_gp (d_L (data_of ex_diff ex_obs2)) (d_L (data_of id ex_obs1)) = 1%:M.
  apply/matrixP=> i j; rewrite !ord1 !mxE /=; transitivity (ex_diff (gcov ex_gp^~ 1) 2%:R); last by rewrite Ek'.
  by rewrite /ex_diff !mxE.
have E : block_mx (2%:R%:M) 1%:M 1%:M (3%:R%:M) *m block_mx (3%:R%:M) (-1%:M) (-1%:M) (2%:R%:M) = (5%:R%:M : 'M[R]_(1 + 1)).
  rewrite mulmx_block !mulmxN !mulmx1 !mul1mx -!scalar_mxM [(5%:R)%:M](scalar_mx_block 1 1).
  have S6 : (6%:R - 1 : R) = 5%:R by rewrite -[6%N]/(5 + 1)%N natrD addrK.
  by rewrite addNr subrr [- 1%:M + _]addrC -!natrM -!raddfB /= S6.
have E' : block_mx (2%:R%:M) 1%:M 1%:M (3%:R%:M) *m (5%:R^-1 *: block_mx (3%:R%:M) (-1%:M) (-1%:M) (2%:R%:M)) = 1%:M :> 'M[R]_(1 + 1).
  by rewrite -scalemxAr E scale_scalar_mx mulVf // pnatr_eq0.
by case: (mulmx1_unit E').
Qed.
(** All assumptions of the theorems above hold for this history. *)
Example C20_C24_example : admissible (gmean ex_gp) (gcov ex_gp) (@point_functl R R) (@stencil_op R R) /\
  good_events (@point_functl R R) (@stencil_op R R) ex_history /\ spec_gram_unit ex_gp (summarise ex_history).
Proof. split; [exact: point_admissible ex_psd | split; [exact: ex_good | exact: ex_unit]]. Qed.
End Example.

Print Assumptions C20_posterior. Print Assumptions C20_at_points. Print Assumptions C20_is_conditional.
Print Assumptions C20_covariance_operator. Print Assumptions C20_noise_free_data. Print Assumptions C20_noisy_data. Print Assumptions C20_gram_invertible. Print Assumptions C20_gram_noise_free. Print Assumptions C20_points_admissible.
Print Assumptions C21_incremental_is_batch. Print Assumptions C21_recomputed_weights.
Print Assumptions C22_order. Print Assumptions C23_covariance. Print Assumptions C23_more_data.
Print Assumptions C24_history. Print Assumptions C24_functional. Print Assumptions C24_functional_formula. Print Assumptions C24_operator.
