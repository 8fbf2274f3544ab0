(** The Wendland covariance functions of one variable with their derivatives: which combinations of
    derivatives have no variance. *)
From Coq Require Import List Arith Lia Reals Lra ZArith FunctionalExtensionality.
From Coquelicot Require Import Coquelicot.
From Verif Require Import Base PolyModel PolySpec PolyProofs PolyCalc NdArray ParamSpec TensorSchur PsdBase PsdMat MaternProofs StatChain
  WendlandModel WendlandSpec WendlandProofs WendlandProps WendPsd EdgeStrict.
Import ListNotations.
Local Open Scope R_scope.

Definition wcs (k : nat) : list R := map (fun c => c / wend (S k) k 0) (it (S k) k).
(** The derivatives of the profile with lengthscale [l]. *)
Definition wg (k : nat) (l : R) (n : nat) (u : R) : R := (/ Rabs l) ^ n * GG (wcs k) n (u / Rabs l).
Lemma wl1 k : wl_l 1 k = S k. Proof. unfold wl_l. rewrite Nat.div_small by lia. lia. Qed.
Lemma wcs_facts k : (forall u, wend_radial (S k) k u = hh (wcs k) 0 (Rabs u)) /\
  (forall j, (j <= 2 * k)%nat -> RPS (Dn j (wcs k)) 1 = 0) /\ (forall i, (i < k)%nat -> RPS (Dn (2 * i + 1) (wcs k)) 0 = 0).
Proof.
  destruct (proj1 (C38_accepts (Z.of_nat 1) (Z.of_nat k))) as [p H]; [cbn; lia|].
  destruct (radial_hh 1 k p H) as (R1 & R2 & R3 & _). rewrite wl1 in *. fold (wcs k) in *. split; [|split]; [|exact R2|exact R3].
  intros u. rewrite <- R1. symmetry. pose proof (proj1 (C38_smoothness 1 k p H) u) as E. fold (wl_l 1 k) in E. now rewrite wl1 in E.
Qed.
Lemma wg_0 k l u : l <> 0 -> wg k l 0 u = wend_radial (S k) k (u / l).
Proof.
  intros H. unfold wg. cbn [pow]. rewrite Rmult_1_l. destruct (wcs_facts k) as [E _]. rewrite E. unfold GG. cbn [Nat.even]. f_equal.
  unfold Rdiv. rewrite !Rabs_mult, !Rabs_inv. now rewrite Rabs_Rabsolu.
Qed.
Lemma wg_derive k l n u : (n < 2 * k)%nat -> is_derive (wg k l n) u (wg k l (S n) u).
Proof.
  intros H. destruct (wcs_facts k) as (_ & V & O). unfold wg. cbn [pow].
  replace (/ Rabs l * (/ Rabs l) ^ n * GG (wcs k) (S n) (u / Rabs l)) with ((/ Rabs l) ^ n * (/ Rabs l * GG (wcs k) (S n) (u / Rabs l))) by ring.
  apply is_derive_scal. evar_last; [apply (is_derive_comp (GG (wcs k) n) (fun u => u / Rabs l)); [apply (GG_derive _ k V O); lia|]|].
  - unfold Rdiv. auto_derive; [trivial|reflexivity].
  - unfold scal. cbn. unfold mult. cbn. ring.
Qed.
Lemma wg_chain k l : chain (wg k l) k.
Proof.
  split; [intros; now apply wg_derive|]. intros n u H. destruct (wcs_facts k) as (_ & V & O).
  destruct (Nat.eq_dec n (2 * k)) as [->|N]; [|apply (ex_derive_continuous (wg k l n)); eexists; apply wg_derive; lia].
  unfold wg. apply (continuous_scal (fun _ => (/ Rabs l) ^ (2 * k)) (fun u => GG (wcs k) (2 * k) (u / Rabs l))); [apply continuous_const|].
  apply (continuous_comp (fun u => u / Rabs l) (GG (wcs k) (2 * k))); [|now apply GG_cont].
  apply (ex_derive_continuous (fun u => u / Rabs l)). unfold Rdiv. auto_derive. trivial.
Qed.
Lemma wg_even k l : even_fun (wg k l 0).
Proof. intros u. unfold wg, GG. cbn [Nat.even]. f_equal. f_equal. unfold Rdiv. rewrite Ropp_mult_distr_l_reverse. apply Rabs_Ropp. Qed.
Lemma wg_psd k l : l <> 0 -> psd_kernel (fun x y : R => wg k l 0 (x - y) : car RF).
Proof.
  intros H. apply (psd_ext (fun x y : R => wend_radial (S k) k (x / l - y / l) : car RF)).
  - intros x y. rewrite wg_0 by exact H. f_equal. field. exact H.
  - exact (psd_pull (fun x y : R => wend_radial (S k) k (x - y) : car RF) (fun x : R => x / l) (wend_psd k)).
Qed.
(** ** At the edge of the support *)
Lemma enum_mul_length (cs : list R) : forall j, length (@enum_mul RF j cs) = length cs.
Proof. induction cs as [|c cs IH]; intros j; cbn; [reflexivity|]. now rewrite IH. Qed.
Lemma Dn_length n (cs : list R) : length (Dn n cs) = (length cs - n)%nat.
Proof. induction n as [|n IH]; cbn [Dn]; [lia|]. rewrite enum_mul_length. destruct (Dn n cs); cbn [tl length] in *; lia. Qed.
Lemma wcs_length k : length (wcs k) = (3 * k + 2)%nat.
Proof. unfold wcs. rewrite map_length, it_length. lia. Qed.
Definition wA (k : nat) (l : R) (n : nat) (u : R) : R := (/ Rabs l) ^ n * ((-1) ^ n * RPS (Dn n (wcs k)) (- (u / Rabs l))).
Lemma wA_derive k l n u : is_derive (wA k l n) u (wA k l (S n) u).
Proof.
  unfold wA. cbn [pow]. replace (/ Rabs l * (/ Rabs l) ^ n * (-1 * (-1) ^ n * RPS (Dn (S n) (wcs k)) (- (u / Rabs l))))
    with ((/ Rabs l) ^ n * ((-1) ^ n * (- / Rabs l * RPS (Dn (S n) (wcs k)) (- (u / Rabs l))))) by ring.
  apply is_derive_scal, is_derive_scal. evar_last; [apply (is_derive_comp (RPS (Dn n (wcs k))) (fun u => - (u / Rabs l))); [apply Dn_derive|]|].
  - unfold Rdiv. auto_derive; [trivial|reflexivity].
  - unfold scal. cbn -[Dn]. unfold mult. cbn -[Dn]. ring.
Qed.
Lemma wg_edge k l n u : l <> 0 -> - Rabs l < u < 0 -> wg k l n u = wA k l n u.
Proof.
  intros H Hu. unfold wg, wA. f_equal. assert (P : 0 < Rabs l) by now apply Rabs_pos_lt. set (v := u / Rabs l).
  assert (Hv : -1 < v < 0). { unfold v. split; [apply Rlt_div_r|apply Rlt_div_l]; lra. }
  unfold GG, hh. rewrite (Rabs_left v) by lra. destruct (Rle_dec (- v) 1); [|lra]. destruct (Nat.even n) eqn:E.
  - apply Nat.even_spec in E as [m ->]. rewrite pow_1_even. symmetry. exact (Rmult_1_l _).
  - assert (Od : Nat.odd n = true) by (rewrite <- Nat.negb_even, E; reflexivity). apply Nat.odd_spec in Od as [m ->]. rewrite Nat.add_1_r, pow_1_odd. unfold sg. destruct (Rlt_dec v 0); [reflexivity|lra].
Qed.
Lemma wg_out k l n u : l <> 0 -> (n <= k)%nat -> u <= - Rabs l -> wg k l n u = 0.
Proof.
  intros H Hn Hu. unfold wg. assert (P : 0 < Rabs l) by now apply Rabs_pos_lt. set (v := u / Rabs l). destruct (wcs_facts k) as (_ & V & _).
  assert (Hv : v <= -1). { unfold v. apply Rle_div_l; lra. }
  assert (Z : hh (wcs k) n (Rabs v) = 0). { unfold hh. rewrite Rabs_left by lra. destruct (Rle_dec (- v) 1); [|reflexivity]. replace (- v) with 1 by lra. apply V. lia. }
  unfold GG. rewrite Z. destruct (Nat.even n); ring.
Qed.
Theorem wg_strict k l : l <> 0 -> strict_on (fun v => fst v <= k)%nat (lk (wg k l)).
Proof.
  intros H s O Z. assert (ZT : form (lkT (wg k l) k) s = 0) by (rewrite form_cut; [exact Z|exact O]).
  pose proof (null_section (lkT (wg k l) k) s (lkT_sym _ _ (wg_chain k l) (wg_even k l)) (lkT_psd _ _ (wg_chain k l) (wg_psd k l H)) ZT) as N.
  assert (P : 0 < Rabs l) by now apply Rabs_pos_lt.
  apply (edge_strict (wg k l) (wA k l) (Rabs l) ((/ Rabs l) ^ (3 * k + 1) * ((-1) ^ (3 * k + 1) * nth 0 (Dn (3 * k + 1) (wcs k)) 0)) k (3 * k + 1) P).
  - intros. apply wA_derive.
  - intros u. unfold wA. f_equal. f_equal. pose proof (Dn_length (3 * k + 1) (wcs k)) as E. rewrite wcs_length in E. replace (3 * k + 2 - (3 * k + 1))%nat with 1%nat in E by lia.
    destruct (Dn (3 * k + 1) (wcs k)) as [|c [|d cs]]; try discriminate. rewrite RPS_cons, RPS_nil. cbn [nth]. rewrite Rmult_0_r. apply Rplus_0_r.
  - intros n u Hn. unfold wA. pose proof (Dn_length n (wcs k)) as E. rewrite wcs_length in E. destruct (Dn n (wcs k)); [rewrite RPS_nil; ring|cbn [length] in E; lia].
  - repeat apply Rmult_integral_contrapositive_currified.
    + apply pow_nonzero, Rinv_neq_0_compat. lra.
    + apply pow_nonzero. lra.
    + intros E. apply Dn_nth in E. rewrite Nat.add_0_l in E. revert E. unfold wcs.
      replace (@nth R (3 * k + 1) (map (fun c => c / wend (S k) k 0) (it (S k) k)) 0) with (nth (3 * k + 1) (it (S k) k) 0 / wend (S k) k 0).
      * pose proof (wend_0_pos (S k) k). apply Rmult_integral_contrapositive_currified; [|apply Rinv_neq_0_compat; lra]. replace (3 * k + 1)%nat with (S k + 2 * k)%nat by lia. apply it_lead.
      * rewrite <- (map_nth (fun c => c / wend (S k) k 0)). f_equal. unfold Rdiv. ring.
  - lia.
  - intros n u _ Hu. now apply wg_edge.
  - intros n u Hn Hu. now apply wg_out.
  - exact O.
  - intros t. rewrite <- (N (0%nat, t)). apply sumR_ext. intros p Hp. specialize (O p Hp). cbv beta in O. rewrite lkT_ok by (cbn [fst]; lia). unfold lk. cbn [fst snd pow]. rewrite Nat.add_0_r. ring.
Qed.
