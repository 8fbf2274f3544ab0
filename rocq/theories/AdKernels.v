From Coq Require Import List Reals Bool Arith ZArith Lra Lia FunctionalExtensionality.
From Coquelicot Require Import Coquelicot.
From Verif Require Import Base NdArray PolyModel PolyClassModel PolyProofs PolyCalc FunExprModel DiffopModel LfoModel KernelModel WendlandModel WendlandSpec WendlandProofs WendlandProps
  PdeModel AdModel AdSpec AdProofs.
Import ListNotations.
Open Scope R_scope.

(** * Values *)
Lemma psum_val e l : pval e (psum l) = rsum (map (pval e) l).
Proof. induction l as [|p l IH]; [reflexivity|]. cbn [psum fold_right map rsum pval]. unfold psum, rsum in IH. now rewrite IH. Qed.
Lemma psum_reg e l : (forall p, In p l -> reg e p) -> reg e (psum l).
Proof. induction l as [|p l IH]; intros H; [exact I|]. split; [apply H; now left|apply IH; intros q Hq; apply H; now right]. Qed.
Lemma sqdist_val e sh sc : pval e (sqdist_prog sh sc) = bnorm_sq sh (fun i => vdiff (fst e) (snd e) i * sc i).
Proof. unfold sqdist_prog. rewrite psum_val, map_map. reflexivity. Qed.
Lemma sqdist_reg e sh sc : reg e (sqdist_prog sh sc).
Proof. apply psum_reg. intros p Hp. apply in_map_iff in Hp as (i & <- & _). cbn. repeat split; auto. left. lia. Qed.
Lemma dist_val e sh sc : pval e (dist_prog sh sc) = bnorm sh (fun i => vdiff (fst e) (snd e) i * sc i).
Proof. cbn [dist_prog pval]. now rewrite sqdist_val. Qed.
Lemma horner_val e cs x : pval e (horner_prog cs x) = @peval RF cs (pval e x).
Proof.
  unfold horner_prog, peval, pdegree, pcoef. change (f0 (f := RF)) with 0.
  assert (G : forall l p a, pval e p = a -> pval e (fold_left (fun res k => PAdd (PMul res x) (PCst (nth k cs 0))) l p) = fold_left (fun res k => res * pval e x + nth k cs 0) l a).
  { induction l as [|k l IH]; intros p a Ha; [exact Ha|]. cbn [fold_left]. apply IH. cbn [pval]. now rewrite Ha. }
  exact (G (rev (seq 0 (length cs - 1))) _ _ eq_refl).
Qed.
Lemma horner_reg e cs x : reg e x -> reg e (horner_prog cs x).
Proof.
  intros H. unfold horner_prog. generalize (rev (seq 0 (length cs - 1))).
  assert (G : forall l p, reg e p -> reg e (fold_left (fun res k => PAdd (PMul res x) (PCst (nth k cs 0))) l p)).
  { induction l as [|k l IH]; intros p Hp; [exact Hp|]. cbn [fold_left]. apply IH. cbn [reg]. auto. }
  intros l. now apply G.
Qed.
Lemma horner_run e cs x a : run e x = Fin a -> run e (horner_prog cs x) = Fin (@peval RF cs a).
Proof.
  intros H. unfold horner_prog, peval, pdegree, pcoef. change (f0 (f := RF)) with 0.
  assert (G : forall l p c, run e p = Fin c -> run e (fold_left (fun res k => PAdd (PMul res x) (PCst (nth k cs 0))) l p) = Fin (fold_left (fun res k => res * a + nth k cs 0) l c)).
  { induction l as [|k l IH]; intros p c Hp; [exact Hp|]. cbn [fold_left]. apply IH. cbn [run]. now rewrite Hp, H. }
  exact (G (rev (seq 0 (length cs - 1))) (PCst (nth (length cs - 1) cs 0)) (nth (length cs - 1) cs 0) eq_refl).
Qed.
Lemma dist_run e sh sc : run e (dist_prog sh sc) = Fin (bnorm sh (fun i => vdiff (fst e) (snd e) i * sc i)).
Proof.
  cbn [dist_prog run]. rewrite (run_reg e _ (sqdist_reg e sh sc)), sqdist_val. cbn [esqrt]. destruct (Rleb_spec 0 (bnorm_sq sh (fun i => vdiff (fst e) (snd e) i * sc i))) as [H|H]; [reflexivity|].
  elim H. unfold bnorm_sq, bsum, rsum. generalize (all_indices sh). induction l as [|i l IH]; cbn [map fold_right]; [lra|]. assert (X := pow2_ge_0 (vdiff (fst e) (snd e) i * sc i)). lra.
Qed.

(** * Distances *)
Definition dpos (sh : shape) (sc : array) (e : env) : Prop := 0 < pval e (sqdist_prog sh sc).
Lemma dpos_open sh sc e b v : dpos sh sc e -> locally 0 (fun t => dpos sh sc (move e b t v)).
Proof.
  intros H. apply (cont_gt (fun t => pval (move e b t v) (sqdist_prog sh sc))); [apply prog_cont, sqdist_reg|]. cbv beta. now rewrite move_0.
Qed.
Lemma dist_reg e sh sc : dpos sh sc e -> reg e (dist_prog sh sc).
Proof. intros H. split; [apply sqdist_reg|exact H]. Qed.
Lemma sum_sq_pos (f : index -> R) l i : In i l -> f i <> 0 -> 0 < rsum (map (fun j => f j ^ 2) l).
Proof.
  assert (P : forall l, 0 <= rsum (map (fun j => f j ^ 2) l)) by (clear; unfold rsum; induction l as [|j l IH]; cbn [map fold_right]; [lra|assert (X := pow2_ge_0 (f j)); lra]).
  induction l as [|j l IH]; intros H N; [contradiction|]. cbn [map rsum fold_right]. specialize (P l). destruct H as [->|H].
  - assert (0 < f i ^ 2) by (apply pow2_gt_0; exact N). unfold rsum in *. lra.
  - specialize (IH H N). assert (0 <= f j ^ 2) by apply pow2_ge_0. unfold rsum in *. lra.
Qed.
Lemma apart_dpos sh sc e : (forall i, valid_index sh i -> sc i <> 0) -> apart sh e -> dpos sh sc e.
Proof.
  intros Hs (i & Hi & Ne). unfold dpos. rewrite sqdist_val. unfold bnorm_sq, bsum. apply (sum_sq_pos (fun i => vdiff (fst e) (snd e) i * sc i) _ i).
  - now apply all_indices_spec.
  - unfold vdiff. apply Rmult_integral_contrapositive_currified; [lra|now apply Hs].
Qed.

(** * The cut-off *)
Lemma glue (r A : R -> R) (A' : R) : continuous r 0 -> is_derive A 0 A' -> (r 0 = 1 -> A 0 = 0 /\ A' = 0) ->
  is_derive (fun t => if Rle_dec (r t) 1 then A t else 0) 0 (if Rle_dec (r 0) 1 then A' else 0).
Proof.
  intros K D E. destruct (Rtotal_order (r 0) 1) as [L|[L|L]].
  - destruct (Rle_dec (r 0) 1); [|lra]. eapply (is_derive_ext_loc (K := R_AbsRing) (V := R_NormedModule)); [|exact D].
    generalize (cont_lt r 0 1 K L). apply filter_imp. intros t Ht. destruct (Rle_dec (r t) 1); [reflexivity|lra].
  - destruct (E L) as [E0 E1]. subst A'. destruct (Rle_dec (r 0) 1) as [H0|H0]; [|lra].
    assert (G : derivable_pt_lim (fun t => if Rle_dec (r t) 1 then A t else 0) 0 0).
    { apply is_derive_Reals in D. intros eps He. destruct (D eps He) as (del & Hd). exists del. intros h H1 H2. specialize (Hd h H1 H2). rewrite E0 in Hd.
      destruct (Rle_dec (r 0) 1) as [H|H]; [|lra]. rewrite E0. destruct (Rle_dec (r (0 + h)) 1); [exact Hd|]. replace ((0 - 0) / h - 0) with 0 by (field; exact H1). now rewrite Rabs_R0. }
    exact (proj2 (is_derive_Reals _ _ _) G).
  - destruct (Rle_dec (r 0) 1); [lra|]. eapply (is_derive_ext_loc (K := R_AbsRing) (V := R_NormedModule)); [|apply d_const].
    generalize (cont_gt r 0 1 K L). apply filter_imp. intros t Ht. destruct (Rle_dec (r t) 1); [exfalso; apply (Rlt_not_le _ _ Ht); assumption|reflexivity].
Qed.

Section Wend.
Variables (sh : shape) (sc : array) (cs : list R) (N : nat).
Hypothesis van1 : forall j, (j <= N)%nat -> RPS (Dn j cs) 1 = 0.
Hypothesis cs_ne : cs <> [].
Notation r := (dist_prog sh sc).
Notation V := (dpos sh sc).
(** The inner program in terms of the derivatives of the polynomial. *)
Definition tval (e : env) (ts : list (nat * prog)) : R := rsum (map (fun t => RPS (Dn (fst t) cs) (pval e r) * pval e (snd t)) ts).
Definition tnext (b : bool) (v : array) (ts : list (nat * prog)) : list (nat * prog) :=
  flat_map (fun t => [(S (fst t), PMul (pjvp b r v) (snd t)); (fst t, pjvp b (snd t) v)]) ts.
Lemma tval_derive e b v ts : V e -> (forall t, In t ts -> reg e (snd t)) ->
  is_derive (fun s => tval (move e b s v) ts) 0 (tval e (tnext b v ts)).
Proof.
  intros He H. induction ts as [|[j B] ts IH]; [exact (d_const 0 0)|].
  assert (HB : reg e B) by (apply (H (j, B)); now left).
  assert (IH' := IH (fun t h => H t (or_intror h))).
  eapply dval.
  - apply (d_plus (fun s => RPS (Dn j cs) (pval (move e b s v) r) * pval (move e b s v) B) (fun s => tval (move e b s v) ts)); [|exact IH'].
    apply d_mult; [|exact (prog_derive e b v B HB)]. apply (d_comp (RPS (Dn j cs))); [apply Dn_derive|]. apply prog_derive, dist_reg, He.
  - rewrite !move_0. unfold tval. cbn [tnext flat_map app map rsum fold_right fst snd]. fold (tnext b v ts). unfold rsum. cbn [pval]. ring.
Qed.
Definition wq (n : nat) (p : prog) : Prop := p = PCst 0 \/
  exists A ts, p = PWhere r A (PCst 0) /\ (forall e, V e -> reg e A /\ pval e A = tval e ts) /\
    (forall t, In t ts -> (fst t + n <= N)%nat /\ forall e, V e -> reg e (snd t)).
Lemma wq_run n p e : wq n p -> V e -> run e p = Fin (pval e p).
Proof.
  intros [->|(A & ts & -> & HA & _)] He; [reflexivity|]. cbn [run pval]. rewrite dist_run, (dist_val e sh sc). cbn [ele1]. unfold Rleb.
  destruct (Rle_dec _ 1); [apply run_reg, HA, He|reflexivity].
Qed.
Lemma tval_1 e ts : pval e r = 1 -> (forall t, In t ts -> (fst t <= N)%nat) -> tval e ts = 0.
Proof.
  intros E. unfold tval. rewrite E. induction ts as [|t ts IH]; intros H; [reflexivity|]. cbn [map rsum fold_right]. rewrite van1 by (apply H; now left).
  unfold rsum in IH. rewrite IH by (intros u Hu; apply H; now right). ring.
Qed.
Lemma tnext_in b v ts t : In t (tnext b v ts) -> exists s, In s ts /\ (t = (S (fst s), PMul (pjvp b r v) (snd s)) \/ t = (fst s, pjvp b (snd s) v)).
Proof. unfold tnext. intros H. apply in_flat_map in H as (s & Hs & [<-|[<-|[]]]); exists s; auto. Qed.
Lemma wq_step n p b v : wq (S n) p -> wq n (pjvp b p v) /\ forall e, V e -> is_derive (fun t => pval (move e b t v) p) 0 (pval e (pjvp b p v)).
Proof.
  intros [->|(A & ts & -> & HA & Hts)].
  { split; [now left|]. intros e _. exact (d_const 0 0). }
  assert (D : forall e, V e -> pval e (pjvp b A v) = tval e (tnext b v ts)).
  { intros e He. assert (X := tval_derive e b v ts He (fun t h => proj2 (Hts t h) e He)).
    assert (Y : is_derive (fun s => tval (move e b s v) ts) 0 (pval e (pjvp b A v))).
    { eapply (is_derive_ext_loc (K := R_AbsRing) (V := R_NormedModule)); [|apply prog_derive, HA, He].
      generalize (dpos_open sh sc e b v He). apply filter_imp. intros t Ht. apply HA, Ht. }
    rewrite <- (is_derive_unique _ _ _ X). symmetry. exact (is_derive_unique _ _ _ Y). }
  assert (I : forall t, In t (tnext b v ts) -> (fst t + n <= N)%nat /\ forall e, V e -> reg e (snd t)).
  { intros t Ht. apply tnext_in in Ht as (s & Hs & [->| ->]); destruct (Hts s Hs) as [H1 H2]; cbn [fst snd]; split; try lia; intros e He.
    - split; [apply reg_tangent, dist_reg, He|now apply H2].
    - apply reg_tangent. now apply H2. }
  assert (E : pjvp b (PWhere r A (PCst 0)) v = PCst 0 /\ (forall e, pval e (pjvp b A v) = 0) \/ pjvp b (PWhere r A (PCst 0)) v = PWhere r (pjvp b A v) (PCst 0)).
  { unfold pjvp. cbn [tangent]. destruct (tangent b v A); [right|left]; cbn [or_zero]; auto. }
  split.
  - destruct E as [[-> _]| ->]; [now left|right]. exists (pjvp b A v), (tnext b v ts). split; [reflexivity|]. split; [|exact I].
    intros e He. split; [apply reg_tangent, HA, He|now apply D].
  - intros e He.
    assert (G : is_derive (fun t => pval (move e b t v) (PWhere r A (PCst 0))) 0 (if Rle_dec (pval e r) 1 then pval e (pjvp b A v) else 0)).
    { cbn [pval]. assert (X := glue (fun t => pval (move e b t v) r) (fun t => pval (move e b t v) A) (pval e (pjvp b A v))). cbv beta in X. rewrite !move_0 in X.
      apply X; [apply prog_cont, dist_reg, He|apply prog_derive, HA, He|]. intros E1. rewrite (D e He), (proj2 (HA e He)). split; apply tval_1; auto.
      - intros t Ht. specialize (Hts t Ht). lia.
      - intros t Ht. specialize (I t Ht). lia. }
    destruct E as [[-> Z]| ->]; [|exact G]. eapply dval; [exact G|]. cbn [pval]. rewrite Z. now destruct (Rle_dec _ 1).
Qed.
Theorem wend_chain ds e : (length ds <= N)%nat -> V e ->
  let p := PWhere r (horner_prog cs r) (PCst 0) in
  run e (iterate p ds) = Fin (derivs ds (fun e => pval e p) e) /\ differentiable ds (fun e => pval e p) e.
Proof.
  intros L He p. apply (chain_ok V (fun e b v => dpos_open sh sc e b v) wq wq_run wq_step) with (p := p); auto.
  right. exists (horner_prog cs r), [(0%nat, PCst 1)]. split; [reflexivity|]. split.
  - intros e' He'. split; [apply horner_reg, dist_reg, He'|]. rewrite horner_val. unfold tval. cbn [map rsum fold_right fst snd pval Dn]. rewrite (horner_correct RF RF_laws) by exact cs_ne. unfold rsum. cbn [fold_right]. rewrite Rmult_1_r, Rplus_0_r. reflexivity.
  - intros t [<-|[]]. cbn [fst snd]. split; [lia|]. intros; exact I.
Qed.
End Wend.

(** * Singular points *)
Section Nan.
Variables (sh : shape) (sc : array) (e : env).
Hypothesis zero : forall i, valid_index sh i -> fst e i = snd e i.
Hypothesis ne : exists i, valid_index sh i.
Notation s := (sqdist_prog sh sc).
Notation r := (dist_prog sh sc).
(** A tangent of the squared distance. *)
Definition ztan (t : prog) : Prop := exists b v, tangent b v s = Some t.
Inductive nan : prog -> Prop :=
| nan_base t c : ztan t -> nan (PMul t (PDiv (PCst c) (PSqrt s)))
| nan_add1 p q : nan p -> nan (PAdd p q)
| nan_add2 p q : nan q -> nan (PAdd p q)
| nan_mul1 p q : nan p -> nan (PMul p q)
| nan_mul2 p q : nan q -> nan (PMul p q)
| nan_neg p : nan p -> nan (PNeg p)
| nan_where p q : nan p -> nan (PWhere r p q).
Lemma s0 : run e s = Fin 0.
Proof.
  rewrite (run_reg e _ (sqdist_reg e sh sc)), sqdist_val. f_equal. unfold bnorm_sq, bsum, vdiff.
  assert (G : forall l, (forall i, In i l -> valid_index sh i) -> rsum (map (fun i => ((fst e i - snd e i) * sc i) ^ 2) l) = 0).
  { induction l as [|i l IH]; intros H; [reflexivity|]. cbn [map rsum fold_right]. unfold rsum in IH. rewrite IH by (intros j Hj; apply H; now right). rewrite zero by (apply H; now left). ring. }
  apply G. intros i Hi. now apply all_indices_spec.
Qed.
Lemma s_tangent b v : exists t, tangent b v s = Some t.
Proof.
  unfold sqdist_prog. destruct ne as (i & Hi). apply all_indices_spec in Hi. revert Hi. generalize (all_indices sh). intros l.
  induction l as [|j l IH]; intros H; [contradiction|]. cbn [map psum fold_right tangent]. fold (psum (map (fun i => PPow (PMul (PSub (PVar false i) (PVar true i)) (PCst (sc i))) 2) l)).
  destruct b; cbn [Bool.eqb option_map Z.eqb]; destruct (tangent _ v (psum _)); eauto.
Qed.
Lemma ztan_run t : ztan t -> run e t = Fin 0.
Proof.
  intros (b & v & H). assert (R := reg_tangent b v e s (sqdist_reg e sh sc)). unfold pjvp in R. rewrite H in R. cbn [or_zero] in R. rewrite (run_reg e t R). f_equal.
  clear R. revert t H. unfold sqdist_prog.
  assert (G : forall l, (forall i, In i l -> valid_index sh i) -> forall t, tangent b v (psum (map (fun i => PPow (PMul (PSub (PVar false i) (PVar true i)) (PCst (sc i))) 2) l)) = Some t -> pval e t = 0).
  { induction l as [|i l IH]; intros H t; [discriminate|]. cbn [map psum fold_right tangent]. fold (psum (map (fun i => PPow (PMul (PSub (PVar false i) (PVar true i)) (PCst (sc i))) 2) l)).
    specialize (IH (fun j h => H j (or_intror h))). assert (Z := zero i (H i (or_introl eq_refl))).
    destruct (tangent b v (psum _)) as [u|] eqn:Eu.
    - specialize (IH u eq_refl). destruct b; cbn [Bool.eqb option_map Z.eqb]; intros [= <-]; cbn [pval arg]; rewrite IH, Z, powerRZ_1; ring.
    - destruct b; cbn [Bool.eqb option_map Z.eqb]; intros [= <-]; cbn [pval arg]; rewrite Z, powerRZ_1; ring. }
  apply G. intros i Hi. now apply all_indices_spec.
Qed.
Lemma emul_nan a : emul a NaN = NaN. Proof. now destruct a. Qed.
Lemma eadd_nan a : eadd a NaN = NaN. Proof. now destruct a. Qed.
Lemma nan_run p : nan p -> run e p = NaN.
Proof.
  induction 1; cbn [run].
  - rewrite (ztan_run _ H), s0. cbn [esqrt]. destruct (Rleb_spec 0 0); [|lra]. rewrite sqrt_0. cbn [ediv]. destruct (Reqb_spec 0 0); [|lra].
    unfold inf_of. destruct (Reqb_spec c 0); [reflexivity|]. destruct (Rleb 0 c); cbn [emul]; unfold inf_of; [destruct (Reqb_spec 0 0)|destruct (Reqb_spec (- 0) 0)]; try reflexivity; lra.
  - now rewrite IHnan.
  - rewrite IHnan. apply eadd_nan.
  - now rewrite IHnan.
  - rewrite IHnan. apply emul_nan.
  - now rewrite IHnan.
  - change (run e (dist_prog sh sc)) with (esqrt (run e s)). rewrite s0. cbn [esqrt]. destruct (Rleb_spec 0 0); [|lra]. rewrite sqrt_0. cbn [ele1]. destruct (Rleb_spec 0 1); [exact IHnan|lra].
Qed.
Lemma r_tangent b v : exists g, tangent b v r = Some g /\ nan g.
Proof. destruct (s_tangent b v) as (t & Ht). exists (PMul t (PDiv (PCst (1 / 2)) (PSqrt s))). unfold dist_prog. cbn [tangent]. rewrite Ht. split; [reflexivity|]. constructor. now exists b, v. Qed.
Lemma nan_tangent b v p : nan p -> exists q, tangent b v p = Some q /\ nan q.
Proof.
  induction 1; cbn [tangent].
  - destruct (s_tangent b v) as (u & Hu). rewrite Hu. cbn [option_map]. assert (X : nan (PMul t (PMul (PMul (PNeg (PMul u (PDiv (PCst (1 / 2)) (PSqrt s)))) (PCst c)) (PPow (PSqrt s) (-2))))).
    { apply nan_mul2, nan_mul1, nan_mul1, nan_neg, nan_base. now exists b, v. }
    destruct (tangent b v t); eexists; (split; [reflexivity|]); [now apply nan_add2|exact X].
  - destruct IHnan as (p' & -> & H'). destruct (tangent b v q); eexists; (split; [reflexivity|]); [now apply nan_add1|exact H'].
  - destruct IHnan as (q' & -> & H'). destruct (tangent b v p); eexists; (split; [reflexivity|]); [now apply nan_add2|exact H'].
  - destruct IHnan as (p' & -> & H'). destruct (tangent b v q); eexists; (split; [reflexivity|]); [now apply nan_add1, nan_mul1|now apply nan_mul1].
  - destruct IHnan as (q' & -> & H'). destruct (tangent b v p); eexists; (split; [reflexivity|]); [now apply nan_add2, nan_mul2|now apply nan_mul2].
  - destruct IHnan as (p' & -> & H'). eexists. split; [reflexivity|]. now apply nan_neg.
  - destruct IHnan as (p' & -> & H'). eexists. split; [reflexivity|]. now apply nan_where.
Qed.
Lemma nan_iterate ds p : nan p -> nan (iterate p ds).
Proof. revert p. induction ds as [|[b v] ds IH]; intros p H; [exact H|]. cbn [iterate fold_left fst snd]. apply IH. unfold pjvp. destruct (nan_tangent b v p H) as (q & -> & Hq). exact Hq. Qed.
(** Horner's scheme with at least two coefficients *)
Lemma nan_horner b v cs : (2 <= length cs)%nat -> exists g, tangent b v (horner_prog cs r) = Some g /\ nan g.
Proof.
  intros L. destruct (r_tangent b v) as (tr & Hr & Nr). unfold horner_prog. destruct (length cs - 1)%nat as [|m] eqn:Em; [lia|].
  rewrite seq_S, rev_app_distr. cbn [rev app fold_left].
  assert (G : forall l p, (exists g, tangent b v p = Some g /\ nan g) -> exists g, tangent b v (fold_left (fun res k => PAdd (PMul res r) (PCst (nth k cs 0))) l p) = Some g /\ nan g).
  { induction l as [|k l IH]; intros p (g & Hg & Ng); [now exists g|]. cbn [fold_left]. apply IH. cbn [tangent]. rewrite Hg. change (tangent b v (PSqrt s)) with (tangent b v r). rewrite Hr. eexists. split; [reflexivity|]. now apply nan_add1, nan_mul1. }
  apply G. cbn [tangent]. change (option_map (fun g => PMul g (PDiv (PCst (1 / 2)) (PSqrt s))) (tangent b v s)) with (tangent b v r). rewrite Hr. eexists. split; [reflexivity|]. now apply nan_mul2.
Qed.
End Nan.
