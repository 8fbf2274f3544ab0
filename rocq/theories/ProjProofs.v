(** Lemmas about the L2 projection of kernels. *)
From Coq Require Import List Reals Lra Lia Bool Arith ZArith.
From Coquelicot Require Import Coquelicot.
From Verif Require Import Base NdArray PiecewiseSpec FemModel FemSpec FemProofs FemIntegral FemProps.
From Verif Require Import FunExprModel KernelModel IntegralModel IntegralSpec IntegralProofs IntegralProps ProjModel ProjSpec.
From Verif Require Import MaternPoly MaternProps MaternProofs KernelSpec.
Import ListNotations.
Open Scope R_scope.

(** ** Injective square systems are solvable *)
Definition skip (r i : nat) : nat := if (i <? r)%nat then i else S i.
Lemma skip_cover r i n : (r < S n)%nat -> (i < S n)%nat -> i = r \/ exists i', (i' < n)%nat /\ i = skip r i'.
Proof.
  intros Hr Hi. destruct (lt_eq_lt_dec i r) as [[L|L]|L]; [|left; exact L|].
  - right. exists i. split; [lia|]. unfold skip. destruct (Nat.ltb_spec i r); lia.
  - right. exists (i - 1)%nat. split; [lia|]. unfold skip. destruct (Nat.ltb_spec (i - 1) r); lia.
Qed.
Lemma skip_lt r i n : (i < n)%nat -> (skip r i < S n)%nat.
Proof. unfold skip. destruct (i <? r)%nat; lia. Qed.
Lemma eliminate n (a b w : nat -> R) (rho : R) : b n <> 0 ->
  sum_upto n (fun j => b j * w j) + b n * w n = rho ->
  sum_upto n (fun j => a j * w j) + a n * w n = sum_upto n (fun j => (a j - a n * b j / b n) * w j) + a n * rho / b n.
Proof.
  intros Hb <-.
  replace (sum_upto n (fun j => (a j - a n * b j / b n) * w j)) with (sum_upto n (fun j => a j * w j) + - (a n / b n) * sum_upto n (fun j => b j * w j)).
  - field. exact Hb.
  - rewrite <- sum_upto_scal, <- sum_upto_plus. apply sum_upto_ext. intros. field. exact Hb.
Qed.
Lemma column_dec n (c : nat -> R) : (exists r, (r < n)%nat /\ c r <> 0) \/ (forall r, (r < n)%nat -> c r = 0).
Proof.
  induction n as [|n [[r [Hr H]]|IH]]; [right; lia| |].
  - left. exists r. split; [lia|exact H].
  - destruct (Req_EM_T (c n) 0) as [E|E]; [|left; exists n; split; [lia|exact E]].
    right. intros r Hr. destruct (Nat.eq_dec r n) as [->|]; [exact E|apply IH; lia].
Qed.
Lemma inj_surj n : forall G : nat -> nat -> R,
  (forall w, (forall i, (i < n)%nat -> sum_upto n (fun j => G i j * w j) = 0) -> forall i, (i < n)%nat -> w i = 0) ->
  forall res, exists w, forall i, (i < n)%nat -> sum_upto n (fun j => G i j * w j) = res i.
Proof.
  induction n as [|n IH]; intros G Hinj res; [exists (fun _ => 0); lia|].
  destruct (column_dec (S n) (fun r => G r n)) as [[r [Hr Hp]]|Hz].
  2:{ exfalso. assert (X : (fun j => if (j =? n)%nat then 1 else 0) n = 0); [|cbn beta in X; rewrite Nat.eqb_refl in X; lra].
      apply (Hinj (fun j => if (j =? n)%nat then 1 else 0)); [|lia]. intros i Hi. rewrite sum_upto_S, sum_upto_zero.
      - rewrite Hz by exact Hi. ring.
      - intros j Hj. destruct (Nat.eqb_spec j n); [lia|ring]. }
  assert (Ext : forall (u v : nat -> R) c, sum_upto n (fun j => u j * (if (j =? n)%nat then c else v j)) = sum_upto n (fun j => u j * v j)).
  { intros u v c. apply sum_upto_ext. intros j Hj. destruct (Nat.eqb_spec j n); [lia|reflexivity]. }
  destruct (IH (fun i j => G (skip r i) j - G (skip r i) n * G r j / G r n)) with (res := fun i => res (skip r i) - G (skip r i) n * res r / G r n) as [w Hw].
  - intros w Hw. set (c := - sum_upto n (fun j => G r j * w j) / G r n). set (w' := fun j => if (j =? n)%nat then c else w j).
    assert (Rr : sum_upto n (fun j => G r j * w' j) + G r n * w' n = 0).
    { unfold w' at 1. rewrite Ext. unfold w', c. rewrite Nat.eqb_refl. field. exact Hp. }
    assert (W : forall i, (i < S n)%nat -> w' i = 0).
    { apply Hinj. intros i Hi. rewrite sum_upto_S. destruct (skip_cover r i n Hr Hi) as [->|[i' [Hi' ->]]]; [exact Rr|].
      rewrite (eliminate n (G (skip r i')) (G r) w' 0 Hp Rr). unfold w'.
      rewrite (Ext (fun j => G (skip r i') j - G (skip r i') n * G r j / G r n)), (Hw i' Hi'). field. exact Hp. }
    intros i Hi. specialize (W i ltac:(lia)). unfold w' in W. destruct (Nat.eqb_spec i n); [lia|exact W].
  - set (c := (res r - sum_upto n (fun j => G r j * w j)) / G r n). exists (fun j => if (j =? n)%nat then c else w j).
    assert (Rr : sum_upto n (fun j => G r j * (if (j =? n)%nat then c else w j)) + G r n * (if (n =? n)%nat then c else w n) = res r).
    { rewrite Ext, Nat.eqb_refl. unfold c. field. exact Hp. }
    intros i Hi. rewrite sum_upto_S. destruct (skip_cover r i n Hr Hi) as [->|[i' [Hi' ->]]]; [exact Rr|].
    rewrite (eliminate n (G (skip r i')) (G r) (fun j => if (j =? n)%nat then c else w j) (res r) Hp Rr).
    rewrite (Ext (fun j => G (skip r i') j - G (skip r i') n * G r j / G r n)), (Hw i' Hi'). field. exact Hp.
Qed.

(** ** The closed form on one cell *)
Section Cell.
Variables (l x t0 : R).
Hypothesis Hl : 0 < l.
Let al := m32_alpha l.
Lemma al_pos : 0 < al.
Proof. unfold al, m32_alpha. apply Rdiv_lt_0_compat; [apply sqrt_lt_R0; lra|exact Hl]. Qed.
Lemma line_32 u : matern_line 1 l x u = (1 + al * Rabs (x - u)) * exp (- (al * Rabs (x - u))).
Proof.
  unfold matern_line. replace (sqrt (2 * INR 1 + 1) * (Rabs (x - u) / l)) with (al * Rabs (x - u)).
  - set (r := al * Rabs (x - u)). unfold matern_half. cbn. field.
  - unfold al, m32_alpha. cbn [INR]. replace (2 * 1 + 1) with 3 by ring. field. lra.
Qed.
Lemma anti_deriv a t : a <> 0 -> is_derive (antideriv x t0 a) t ((t - t0) * ((1 + a * (t - x)) * exp (- (a * (t - x))))).
Proof.
  intros Ha. unfold antideriv. auto_derive; [trivial|].
  replace (- a * (t + - x)) with (- (a * (t - x))) by ring. field. exact Ha.
Qed.
Lemma anti_cont a t : continuous (fun t => (t - t0) * ((1 + a * (t - x)) * exp (- (a * (t - x))))) t.
Proof. apply (ex_derive_continuous (fun t => (t - t0) * ((1 + a * (t - x)) * exp (- (a * (t - x)))))). auto_derive. trivial. Qed.
Lemma int_side a p q : a <> 0 -> is_RInt (fun t => (t - t0) * ((1 + a * (t - x)) * exp (- (a * (t - x))))) p q (aux_int x p q t0 a).
Proof.
  intros Ha. apply (is_RInt_antideriv (antideriv x t0 a)); [|apply anti_cont|reflexivity]. intros t. now apply anti_deriv.
Qed.
Lemma int_above p q : x <= p -> p <= q -> is_RInt (fun u => (u - t0) * matern_line 1 l x u) p q (aux_int x p q t0 al).
Proof.
  intros H1 H2. eapply is_RInt_cong; [exact H2| |apply int_side; pose proof al_pos; lra]. intros u Hu. cbn beta. rewrite line_32, Rabs_minus_sym, Rabs_pos_eq by lra. reflexivity.
Qed.
Lemma int_below p q : q <= x -> p <= q -> is_RInt (fun u => (u - t0) * matern_line 1 l x u) p q (aux_int x p q t0 (- al)).
Proof.
  intros H1 H2. eapply is_RInt_cong; [exact H2| |apply int_side; pose proof al_pos; lra]. intros u Hu. cbn beta. rewrite line_32, Rabs_pos_eq by lra.
  replace (al * (x - u)) with (- al * (u - x)) by ring. reflexivity.
Qed.
Lemma aux_same p a : aux_int x p p t0 a = 0.
Proof. unfold aux_int. ring. Qed.
Lemma int_cell p q : p <= q -> is_RInt (fun u => (u - t0) * matern_line 1 l x u) p q
  (aux_int x (Rmax p x) (Rmax q x) t0 al + aux_int x (Rmin p x) (Rmin q x) t0 (- al)).
Proof.
  intros H. destruct (Rle_dec q x) as [Q|Q].
  - rewrite !Rmax_right, !Rmin_left, aux_same, Rplus_0_l by lra. now apply int_below.
  - destruct (Rle_dec x p) as [P|P].
    + rewrite !Rmax_left, !Rmin_right, aux_same, Rplus_0_r by lra. now apply int_above.
    + rewrite (Rmax_right p x), (Rmax_left q x), (Rmin_left p x), (Rmin_right q x) by lra. rewrite Rplus_comm.
      apply (is_RInt_chasles _ p x q); [apply int_below|apply int_above]; lra.
Qed.
End Cell.

Lemma int_hat_cell c t0 l t p q (h : R -> R) : 0 < l -> p <= q -> (forall u, h u = c * (u - t0)) ->
  is_RInt (fun u => h u * matern_line 1 l t u) p q
   (c * (aux_int t (Rmax p t) (Rmax q t) t0 (m32_alpha l) + aux_int t (Rmin p t) (Rmin q t) t0 (- m32_alpha l))).
Proof.
  intros Hl Hpq Hh. eapply is_RInt_cong; [exact Hpq| |exact (@is_RInt_scal R_NormedModule _ _ _ c _ (int_cell l t t0 Hl p q Hpq))].
  intros u _. unfold scal. cbn. unfold mult. cbn. rewrite Hh. ring.
Qed.

Lemma m32_rhs_int grid zb b l t : increasing grid -> basis_init grid zb = Ok b -> 0 < l -> forall i, (i < b_len b)%nat ->
  is_RInt (fun u => basis_eval b u i * matern_line 1 l t u) (nth 0 grid 0) (nth (length grid - 1) grid 0) (m32_rhs b l t i).
Proof.
  intros Hinc Hb Hl i Hi. destruct (init_facts grid zb b Hinc Hb) as (A & B & Z & L & G3 & N2 & D & D1 & D2).
  rewrite <- D1, <- D2.
  pose proof (g_lt b A B i (i + 1) ltac:(lia)) as H1. pose proof (g_lt b A B (i + 1) (i + 2) ltac:(lia)) as H2.
  eapply is_RInt_eq; [|apply (int_hat_split b A B N2 (fun u v => v * matern_line 1 l t u) i (int_im1_i b l t i) (int_i_ip1 b l t i) Hi)].
  - unfold m32_rhs. destruct (b_zero b) eqn:Ez; [reflexivity|]. destruct N2 as [N2|]; [|discriminate].
    destruct (Nat.eqb_spec i (b_len b - 1)), (Nat.eqb_spec i 0); try lia; ring.
  - intros. ring.
  - intros _. unfold int_im1_i, x_im1, x_i. set (gi := at_ (b_grid b) i) in *. set (gj := at_ (b_grid b) (i + 1)) in *.
    eapply is_RInt_eq; [|apply (int_hat_cell (/ (gj - gi)) gi l t gi gj (fun u => (u - gi) / (gj - gi))); [exact Hl|lra|intros; unfold Rdiv; ring]].
    unfold Rdiv. ring.
  - intros _. unfold int_i_ip1, x_i, x_ip1. set (gi := at_ (b_grid b) (i + 1)) in *. set (gj := at_ (b_grid b) (i + 2)) in *.
    eapply is_RInt_eq; [|apply (int_hat_cell (- / (gj - gi)) gj l t gi gj (fun u => (gj - u) / (gj - gi))); [exact Hl|lra|intros; unfold Rdiv; ring]].
    unfold Rdiv. ring.
Qed.

(** ** Normalisation *)
Section Norm.
Variables (grid : list R) (zb : bool) (b : basis).
Hypothesis Hinc : increasing grid.
Hypothesis Hb : basis_init grid zb = Ok b.
Let lo := nth 0 grid 0.
Let hi := nth (length grid - 1) grid 0.
Let n := b_len b.
Lemma normalizer_total nz res : exists w, normalizer_gives b nz res w.
Proof.
  destruct nz; [|exists res; intros i Hi; reflexivity].
  destruct (init_facts grid zb b Hinc Hb) as (A & B & Z & L & G3 & N2 & D & D1 & D2).
  apply (inj_surj (b_len b) (mass_matrix b)). intros w. apply (mass_injective b A B N2).
Qed.
(** Right-hand sides that are inner products give projections. *)
Lemma project nz f res w : (forall i, (i < n)%nat -> is_RInt (fun x => basis_eval b x i * f x) lo hi (res i)) ->
  normalizer_gives b nz res w -> l2_projection n (fun i x => basis_eval b x i) lo hi nz f w.
Proof.
  intros H1 Hw i Hi. destruct nz; [|cbv iota; rewrite (Hw i Hi); now apply H1].
  assert (H2 : is_RInt (fun x => sum_upto n (fun j => w j * (basis_eval b x i * basis_eval b x j))) lo hi (sum_upto n (fun j => w j * mass_matrix b i j))).
  { apply is_RInt_sum. intros j Hj. apply (@is_RInt_scal R_NormedModule). now apply (c09_mass grid zb). }
  pose proof (@is_RInt_minus R_NormedModule _ _ _ _ _ _ (H1 i Hi) H2) as H3.
  apply (is_RInt_eq _ _ _ _ 0) in H3.
  - revert H3. apply (@is_RInt_ext R_NormedModule). intros x _. unfold minus, plus, opp. cbn.
    rewrite Rmult_minus_distr_l. unfold Rminus. f_equal. f_equal. rewrite <- sum_upto_scal. apply sum_upto_ext. intros. ring.
  - specialize (Hw i Hi). cbn beta in Hw. fold (sum_upto n (fun j => mass_matrix b i j * w j)) in Hw.
    assert (E : sum_upto n (fun j => w j * mass_matrix b i j) = res i).
    { rewrite <- Hw. apply sum_upto_ext. intros. ring. }
    rewrite E. apply (@plus_opp_r R_AbelianGroup).
Qed.
(** The normaliser is given by a matrix. *)
Lemma normalizer_matrix nz : exists V : nat -> nat -> R, forall res,
  normalizer_gives b nz res (fun i => sum_upto n (fun j => V i j * res j)).
Proof.
  assert (H3 : (3 <= length (b_grid b))%nat) by (apply (init_facts grid zb b Hinc Hb)).
  destruct nz.
  2:{ exists (fun i j => if (i =? j)%nat then 1 else 0). intros res i Hi. rewrite (sum_upto_one b H3 n _ i Hi).
      - rewrite Nat.eqb_refl. ring.
      - intros j Hj Hne. destruct (Nat.eqb_spec i j); [congruence|ring]. }
  assert (X : forall m, exists V : nat -> nat -> R, forall j, (j < m)%nat -> normalizer_gives b true (fun i => if (i =? j)%nat then 1 else 0) (fun i => V i j)).
  { induction m as [|m [V HV]]; [exists (fun _ _ => 0); lia|]. destruct (normalizer_total true (fun i => if (i =? m)%nat then 1 else 0)) as [w Hw].
    exists (fun i j => if (j =? m)%nat then w i else V i j). intros j Hj. destruct (Nat.eqb_spec j m) as [->|]; [exact Hw|apply HV; lia]. }
  destruct (X n) as [V HV]. exists V. intros res i Hi.
  fold (sum_upto n (fun j => mass_matrix b i j * sum_upto n (fun k => V j k * res k))).
  transitivity (sum_upto n (fun k => res k * sum_upto n (fun j => mass_matrix b i j * V j k))).
  - clear HV. assert (S : forall m p, sum_upto m (fun j => mass_matrix b i j * sum_upto p (fun k => V j k * res k)) = sum_upto p (fun k => res k * sum_upto m (fun j => mass_matrix b i j * V j k))).
    { intros m p. induction m as [|m IH].
      - rewrite sum_upto_zero, sum_upto_zero; [reflexivity| |lia]. intros. unfold sum_upto. cbn. ring.
      - rewrite sum_upto_S, IH, <- sum_upto_scal, <- sum_upto_plus. apply sum_upto_ext. intros k _. rewrite sum_upto_S. ring. }
    apply S.
  - rewrite (sum_upto_one b H3 n _ i Hi).
    + specialize (HV i Hi i Hi). cbn beta in HV. change (sum_upto n (fun j => mass_matrix b i j * V j i) = if (i =? i)%nat then 1 else 0) in HV. rewrite HV, Nat.eqb_refl. ring.
    + intros k Hk Hne. specialize (HV k Hk i Hi). cbn beta in HV. change (sum_upto n (fun j => mass_matrix b i j * V j k) = if (i =? k)%nat then 1 else 0) in HV. rewrite HV.
      destruct (Nat.eqb_spec i k); [congruence|ring].
Qed.
Lemma normalizer_unique nz res w w' : normalizer_gives b nz res w -> normalizer_gives b nz res w' -> forall i, (i < n)%nat -> w i = w' i.
Proof.
  intros H H' i Hi. destruct nz; [exact (c09_unique grid zb b Hinc Hb res w w' H H' i Hi)|].
  rewrite (H i Hi), (H' i Hi). reflexivity.
Qed.
Lemma elem_eval i x : (i < n)%nat -> elem b i x = basis_eval b x i.
Proof.
  intros Hi. unfold elem. destruct (init_facts grid zb b Hinc Hb) as (A & B & _).
  now rewrite (eval_elem_ok b A B (Z.of_nat i) i x Hi (or_introl eq_refl)).
Qed.
(** Integrals over the support are integrals over the domain. *)
Lemma support_domain f i l0 h0 v : (i < n)%nat -> support_bounds b (Z.of_nat i) = Ok (l0, h0) ->
  is_RInt (fun x => basis_eval b x i * f x) l0 h0 v -> is_RInt (fun x => basis_eval b x i * f x) lo hi v.
Proof.
  intros Hi Hs HI. destruct (init_facts grid zb b Hinc Hb) as (A & B & Z & L & G3 & N2 & D & D1 & D2).
  rewrite (support_bounds_ok b B (Z.of_nat i) i Hi (or_introl eq_refl) N2) in Hs. injection Hs as <- <-.
  unfold lo, hi. rewrite <- D1, <- D2. now apply support_int.
Qed.
End Norm.
