(** C25: covariance of conditioned multi-output processes. *)
From mathcomp Require Import all_ssreflect all_algebra.
From mathcomp Require Import mxtens.
From Verif Require Import Base NdArray Block2Model Block2Spec MatPD Block2Proofs NormalModel NormalSpec NormalProofs
  CondModel CondSpec CondProofs CondProofs2 CondProofs3 CondPoint CondProps MultiModel.
Set Implicit Arguments. Unset Strict Implicit. Unset Printing Implicit Defensive.
Import GRing.Theory Num.Theory.
Local Open Scope ring_scope.
Arguments from_observations : simpl never.

Section Props.
Variables (F : realFieldType) (P : Type) (m : nat).
Notation X := (P * 'I_m)%type.
Variable chol : forall n : nat, 'M[F]_n -> 'M[F]_n.
Hypothesis cholP : chol_spec chol.
Variable tri : bool.
Variables (g : gp F X) (Sf : (fn F X -> F) -> Prop) (So : funop F X -> Prop).
Hypothesis ad : admissible (gmean g) (gcov g) Sf So.

Lemma state es s : good_events Sf So es -> spec_gram_unit g (summarise es) ->
  run chol tri (Plain g) es = Ok (Posterior s) -> pinv g Sf So (Posterior s) (summarise es).
Proof. by move=> G U R; have [p [R' I _ _]] := run_spec cholP tri ad G U; move: R'; rewrite R => -[->]. Qed.
Lemma linop_lemma es s q0 q1 (ps0 : 'I_q0 -> P) (ps1 : 'I_q1 -> P) a b : good_events Sf So es -> spec_gram_unit g (summarise es) ->
  run chol tri (Plain g) es = Ok (Posterior s) ->
  m_cov_linop s ps0 ps1 a b = Ok (\matrix_(i, j) spec_cov g (summarise es) (ps0 a, i) (ps1 b, j)).
Proof.
move=> G U R; have I := state G U R; rewrite /m_cov_linop (linop_ok _ _ I) /=; congr Ok; apply/matrixP=> i j; rewrite !mxE.
change (spec_cov g (summarise es)
  (ps0 (mxtens_unindex (mxtens_index (i, a))).2, (mxtens_unindex (mxtens_index (i, a))).1)
  (ps1 (mxtens_unindex (mxtens_index (j, b))).2, (mxtens_unindex (mxtens_index (j, b))).1) = spec_cov g (summarise es) (ps0 a, i) (ps1 b, j)).
by rewrite !mxtens_indexK.
Qed.
(** The covariance operator holds the posterior covariance of every pair of points
    and outputs. *)
Theorem C25_operator : forall es s q0 q1 (ps0 : 'I_q0 -> P) (ps1 : 'I_q1 -> P) a b, good_events Sf So es ->
  spec_gram_unit g (summarise es) -> run chol tri (Plain g) es = Ok (Posterior s) ->
  m_cov_linop s ps0 ps1 a b = Ok (\matrix_(i, j) spec_cov g (summarise es) (ps0 a, i) (ps1 b, j)).
Proof. exact: linop_lemma. Qed.
(** So does the mean. *)
Theorem C25_mean : forall es s p i, good_events Sf So es -> spec_gram_unit g (summarise es) ->
  run chol tri (Plain g) es = Ok (Posterior s) -> m_mean s p i = spec_mean g (summarise es) (p, i).
Proof. by move=> es s p i G U R; exact: (pinv_mean (p, i) (state G U R)). Qed.
(** Pointwise evaluation holds it on the diagonal of the outputs; elsewhere it
    subtracts the update of the wrong pair of outputs. *)
Lemma pointwise es s p0 p1 i j : good_events Sf So es -> spec_gram_unit g (summarise es) ->
  run chol tri (Plain g) es = Ok (Posterior s) ->
  m_cov s p0 p1 i j = Ok (prior_cov (gcov g) (s_op (summarise es)) (p0, i) (p1, j) -
     (prior_cov (gcov g) (s_op (summarise es)) (p0, j) (p1, j) - spec_cov g (summarise es) (p0, j) (p1, j))).
Proof.
move=> G U R; have I := state G U R; have := pinv_cov (p0, j) (Some (p1, j)) I; rewrite /p_cov /c_cov /m_cov /m_update.
have [d [[HE Hm Hk HLd Hkl HG Hs Hw] _]] : exists d, inv (s := s) g Sf So (s_op (summarise es)) d /\ True.
  by move: I; rewrite /pinv; case: (s_data _) => // dd [d [I _]]; exists d.
by rewrite Hs /= => -[<-]; rewrite !Hk subKr.
Qed.
Theorem C25_pointwise : forall es s p0 p1 i j, good_events Sf So es -> spec_gram_unit g (summarise es) ->
  run chol tri (Plain g) es = Ok (Posterior s) ->
  m_cov s p0 p1 i j = Ok (prior_cov (gcov g) (s_op (summarise es)) (p0, i) (p1, j) -
     (prior_cov (gcov g) (s_op (summarise es)) (p0, j) (p1, j) - spec_cov g (summarise es) (p0, j) (p1, j))).
Proof. exact: pointwise. Qed.
Theorem C25_pointwise_same_output : forall es s p0 p1 j, good_events Sf So es -> spec_gram_unit g (summarise es) ->
  run chol tri (Plain g) es = Ok (Posterior s) -> m_cov s p0 p1 j j = Ok (spec_cov g (summarise es) (p0, j) (p1, j)).
Proof. by move=> es s p0 p1 j G U R; rewrite (pointwise p0 p1 j j G U R) subKr. Qed.
End Props.

(** Two independent outputs with unit variance, both observed at one point: the
    posterior covariance vanishes, pointwise evaluation reports -1 between the
    outputs. *)
Section Refuted.
Variable R : rcfType.
Notation X := (unit * 'I_2)%type.
Definition r_gp : gp R X := GP (fun _ => 0) (fun x y => (x.2 == y.2)%:R).
Definition r_obs : obs R X := point_obs (fun i : 'I_2 => (tt, i)) 0 None.
Lemma r_psd : psd_kernel (gcov r_gp).
Proof.
move=> n xs; pose A : 'M[R]_(2, n) := \matrix_(i, j) (i == (xs j).2)%:R.
have -> : \matrix_(i, j) gcov r_gp (xs i) (xs j) = A^T *m A.
  apply/matrixP=> i j; rewrite !mxE (bigD1 (xs i).2) //= !mxE eqxx mul1r big1 ?addr0 // => r Hr.
  by rewrite !mxE (negbTE Hr) mul0r.
exact: gram_semi.
Qed.
Lemma r_gram : dgram (gcov r_gp) (data_of id r_obs) = 1%:M.
Proof. by rewrite /dgram /= addr0; apply/matrixP=> i j; rewrite !mxE. Qed.
Lemma r_kLas i : obs_kLa r_gp r_obs (tt, i) = \row_j (i == j)%:R.
Proof. by apply/rowP=> j; rewrite !mxE. Qed.
Lemma refuted : exists s, [/\ from_observations r_gp r_obs = Ok s,
  c_cov s (tt, 0) (Some (tt, 1)) = Ok 0 & m_cov s tt tt 0 1 = Ok (-1)].
Proof.
have ad := point_admissible (gmean r_gp) r_psd.
have E : obs_gram r_gp r_obs = Op 1%:M (Flags true true false false).
  by rewrite /obs_gram /=; congr Op; apply/matrixP=> i j; rewrite !mxE.
rewrite /from_observations E /=; eexists; split; first by reflexivity.
  rewrite /c_cov /= !r_kLas invmx1 mul1mx mxE big1 ?subr0 // => i _; rewrite !mxE.
  by case: i => [[|[|i]]] //= H; rewrite ?mulr0 ?mul0r.
rewrite /m_cov /m_update /= !r_kLas invmx1 mul1mx mxE sub0r (bigD1 1) //= !mxE eqxx mulr1 big1 ?addr0 // => i Hi.
by rewrite !mxE eq_sym (negbTE Hi) mul0r.
Qed.
Theorem C25_pointwise_refuted : exists s, [/\ from_observations r_gp r_obs = Ok s,
  c_cov s (tt, 0) (Some (tt, 1)) = Ok 0 & m_cov s tt tt 0 1 = Ok (-1)].
Proof. exact: refuted. Qed.
End Refuted.

(** With several points the shapes fit only by accident. *)
Lemma shapes n m : n <> 1%N -> m <> 1%N -> n <> m -> m_shape [:: n] m = Err ValueError.
Proof.
move=> /eqP/negbTE n1 /eqP/negbTE m1 /eqP nm; rewrite /m_shape /broadcast_shapes /=.
rewrite PeanoNat.Nat.eqb_refl /=.
have eqE a b : PeanoNat.Nat.eqb a b = (a == b).
  by apply/idP/eqP => [/PeanoNat.Nat.eqb_eq|->] //; apply/PeanoNat.Nat.eqb_refl.
by rewrite !eqE eq_sym (negbTE nm) n1 m1.
Qed.
Theorem C25_batched_refuted : forall n m, n <> 1%N -> m <> 1%N -> n <> m -> m_shape [:: n] m = Err ValueError.
Proof. exact: shapes. Qed.
(** The jax implementation always fails if compiled (see also C62), *)
Theorem C25_jax_traced_refuted : forall batch n, jax_update_shape true batch n = Err TypeError.
Proof. by []. Qed.
(** and with compilation disabled at single points, whatever the process. *)
Theorem C25_jax_refuted : forall n, jax_update_shape false [::] n = Err ValueError.
Proof. by []. Qed.
Theorem C25_jax_batched_refuted : forall n N, n <> N -> jax_update_shape false [:: n] N = Err ValueError.
Proof. by move=> n N /eqP/negbTE H; rewrite /jax_update_shape /= H. Qed.

Print Assumptions C25_operator. Print Assumptions C25_mean. Print Assumptions C25_pointwise.
Print Assumptions C25_pointwise_same_output. Print Assumptions C25_pointwise_refuted. Print Assumptions C25_batched_refuted.
Print Assumptions C25_jax_refuted. Print Assumptions C25_jax_batched_refuted.
