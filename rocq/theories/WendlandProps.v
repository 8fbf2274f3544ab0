(** C38: Wendland polynomials and the Wendland covariance functions. *)
From Coq Require Import List Reals Lra Lia Bool Arith ZArith QArith Qcanon FunctionalExtensionality.
From Coquelicot Require Import Coquelicot.
From Verif Require Import Base PolyModel PolySpec PolyProofs PolyClassModel PolyCalc PolyProps NdArray FunExprModel LfoModel LfoSpec KernelModel KernelSpec WendlandModel WendlandSpec WendlandProofs MaternProofs.
Import ListNotations.
Open Scope R_scope.

Lemma m_div cs : forall j, map Qc2R (enum_div_from (F := QcF) (S j) cs) = enum_div_from (F := RF) (S j) (map Qc2R cs).
Proof.
  induction cs as [|c cs IH]; intros j; [reflexivity|]. cbn [enum_div_from map]. rewrite IH. f_equal. cbn [fdiv QcF RF].
  rewrite Qc2R_div; [now rewrite Qc2R_nat|]. intros E. apply (f_equal Qc2R) in E. rewrite Qc2R_nat, Qc2R_0, fnat_R in E. apply INR_eq with (m := 0%nat) in E. lia.
Qed.
Lemma m_negdiv cs : forall j, map Qc2R (enum_negdiv_from (F := QcF) (S j) cs) = enum_negdiv_from (F := RF) (S j) (map Qc2R cs).
Proof.
  induction cs as [|c cs IH]; intros j; [reflexivity|]. cbn [enum_negdiv_from map]. rewrite IH. f_equal. cbn [fdiv fopp QcF RF].
  rewrite Qc2R_div; [now rewrite Qc2R_nat, Qc2R_opp|]. intros E. apply (f_equal Qc2R) in E. rewrite Qc2R_nat, Qc2R_0, fnat_R in E. apply INR_eq with (m := 0%nat) in E. lia.
Qed.
Lemma m_step cs : map Qc2R (wendland_step (F := QcF) cs) = rstep (map Qc2R cs).
Proof. unfold wendland_step. cbn [map]. rewrite m_negdiv, m_fsum, m_div. cbn [f0 QcF RF]. rewrite Qc2R_0. reflexivity. Qed.
Lemma m_iter k cs : map Qc2R (Nat.iter k (wendland_step (F := QcF)) cs) = Nat.iter k rstep (map Qc2R cs).
Proof. induction k as [|k IH]; [reflexivity|]. cbn [Nat.iter nat_rect]. rewrite m_step. f_equal. exact IH. Qed.

Lemma wend_0_pos l k : 0 < wend l k 0.
Proof. apply wend_pos. lra. Qed.
Lemma wendland_ok d k l : wendland_l d (Z.of_nat k) = Z.of_nat l ->
  exists p, wendland_poly d (Z.of_nat k) = Ok p /\ float_coeffs p = map (fun c => c / wend l k 0) (it l k).
Proof.
  intros L. unfold wendland_poly. rewrite L. destruct (phi_ok l) as (cs0 & -> & B). cbn [bind]. rewrite Nat2Z.id.
  pose proof (m_iter k cs0) as M. rewrite B in M. fold (it l k) in M. remember (Nat.iter k (wendland_step (F := QcF)) cs0) as cs eqn:Ecs. clear Ecs.
  assert (N : length cs = (S l + 2 * k)%nat) by (rewrite <- it_length, <- M, map_length; reflexivity).
  destruct cs as [|c0 cs]; [cbn in N; lia|].
  assert (C0 : Qc2R c0 = wend l k 0).
  { rewrite <- it_eval, RPS_0, <- M. reflexivity. }
  assert (Z0 : c0 <> 0%Qc). { intros E. pose proof (wend_0_pos l k) as P. rewrite <- C0, E, Qc2R_0 in P. lra. }
  assert (E : Qc_eq_bool c0 0 = false). { destruct (Qc_eq_bool c0 0) eqn:E; [|reflexivity]. elim Z0. now apply Qc_eq_bool_correct. }
  rewrite E. set (p := make_rational _).
  assert (F : float_coeffs p = map (fun c => c / wend l k 0) (it l k)).
  { unfold p, make_rational. cbn [float_coeffs]. cbn [map mkpoly]. change (map Qc2R (map (fun c => (c / c0)%Qc) (c0 :: cs)) = map (fun c => c / wend l k 0) (it l k)).
    rewrite <- M, !map_map. apply map_ext. intros c. now rewrite Qc2R_div, C0. }
  assert (D : py_degree p = (l + 2 * k)%nat).
  { unfold py_degree, pdegree. rewrite F, map_length, it_length. lia. }
  rewrite D. replace (Z.of_nat (l + 2 * k) =? Z.of_nat l + 2 * Z.of_nat k)%Z with true by (symmetry; apply Z.eqb_eq; lia). eauto.
Qed.
Definition wl_l (d k : nat) : nat := (d / 2 + k + 1)%nat.
Lemma wl_l_ok d k : wendland_l (Z.of_nat d) (Z.of_nat k) = Z.of_nat (wl_l d k).
Proof. unfold wendland_l, wl_l. rewrite !Nat2Z.inj_add, Nat2Z.inj_div. reflexivity. Qed.
Lemma wend_div l k cs : RPS (map (fun c => c / wend l k 0) cs) = fun r => RPS cs r / wend l k 0.
Proof.
  extensionality r. rewrite (map_ext _ (fmul (f := RF) (/ wend l k 0))) by (intros c; apply Rmult_comm). rewrite (ps_map_mul RF RF_laws). apply Rmult_comm.
Qed.
Lemma eval_ok p l k : float_coeffs p = map (fun c => c / wend l k 0) (it l k) -> forall r, py_eval p r = wend l k r / wend l k 0.
Proof.
  intros F r. unfold py_eval. rewrite (horner_correct RF RF_laws) by (rewrite F; intros E; apply (f_equal (@length R)) in E; rewrite map_length, it_length in E; cbn in E; lia).
  rewrite F. rewrite <- (it_eval l k r). pose proof (wend_div l k (it l k)) as W. exact (f_equal (fun g => g r) W).
Qed.

(** The constructor accepts exactly non-negative smoothness parameters (and dimensions for which the
    exponent is non-negative); otherwise its assertion fails. *)
Theorem C38_accepts : forall d k,
  ((0 <= k /\ 0 <= d / 2 + k + 1)%Z -> exists p, wendland_poly d k = Ok p) /\
  (~ (0 <= k /\ 0 <= d / 2 + k + 1)%Z -> wendland_poly d k = Err AssertionError).
Proof.
  intros d k. split.
  - intros [K L]. destruct (wendland_ok d (Z.to_nat k) (Z.to_nat (d / 2 + k + 1))) as (p & H & _).
    + rewrite !Z2Nat.id by lia. reflexivity.
    + rewrite Z2Nat.id in H by lia. eauto.
  - intros N. unfold wendland_poly. set (l := wendland_l d k). assert (NL : (k < 0 \/ l < 0)%Z) by (unfold l, wendland_l; lia). clearbody l. clear N.
    assert (X : exists cs, phi_l_coefficients l = Ok cs /\ map Qc2R cs = base (Z.to_nat l)).
    { destruct (Z_lt_le_dec l 0) as [H|H].
      - unfold phi_l_coefficients, pascal_row. replace (Z.to_nat l) with 0%nat by lia. cbn. eexists. split; [reflexivity|]. cbn. rewrite Qc2R_qz. unfold base. cbn. reflexivity.
      - destruct (phi_ok (Z.to_nat l)) as (cs & H1 & H2). rewrite Z2Nat.id in H1 by lia. eauto. }
    destruct X as (cs0 & -> & B). cbn [bind].
    pose proof (m_iter (Z.to_nat k) cs0) as M. rewrite B in M. fold (it (Z.to_nat l) (Z.to_nat k)) in M.
    remember (Nat.iter (Z.to_nat k) (wendland_step (F := QcF)) cs0) as cs eqn:Ecs. clear Ecs.
    assert (Nl : length cs = (S (Z.to_nat l) + 2 * Z.to_nat k)%nat) by (rewrite <- it_length, <- M, map_length; reflexivity).
    destruct cs as [|c0 cs]; [cbn in Nl; lia|].
    assert (C0 : Qc2R c0 = wend (Z.to_nat l) (Z.to_nat k) 0).
    { rewrite <- it_eval, RPS_0, <- M. reflexivity. }
    assert (E : Qc_eq_bool c0 0 = false).
    { destruct (Qc_eq_bool c0 0) eqn:E; [|reflexivity]. apply Qc_eq_bool_correct in E. subst c0. pose proof (wend_0_pos (Z.to_nat l) (Z.to_nat k)) as P. rewrite <- C0, Qc2R_0 in P. lra. }
    rewrite E. match goal with |- context[Z.of_nat (py_degree ?q)] => set (p := q) end.
    assert (D : py_degree p = (Z.to_nat l + 2 * Z.to_nat k)%nat).
    { unfold py_degree, pdegree, p, make_rational. cbn [float_coeffs map mkpoly length]. rewrite !map_length. cbn [length] in Nl.
      change (@length (car QcF) cs) with (@length Qc cs) in Nl. change (@length (car QcF) cs) with (@length Qc cs). lia. }
    rewrite D. replace (Z.of_nat (Z.to_nat l + 2 * Z.to_nat k) =? l + 2 * k)%Z with false; [reflexivity|]. symmetry. apply Z.eqb_neq. lia.
Qed.
Print Assumptions C38_accepts.

(** The polynomial is the normalised Wendland function. *)
Theorem C38_recursion : forall d k p, wendland_poly (Z.of_nat d) (Z.of_nat k) = Ok p ->
  let l := (d / 2 + k + 1)%nat in forall r, py_eval p r = wend l k r / wend l k 0.
Proof. intros d k p H l. destruct (wendland_ok _ k _ (wl_l_ok d k)) as (q & H1 & F). assert (q = p) by congruence. subst q. now apply eval_ok. Qed.
Print Assumptions C38_recursion.

(** Value at 0, degree (with a non-zero leading coefficient) and parity. *)
Theorem C38_coefficients : forall d k p, wendland_poly (Z.of_nat d) (Z.of_nat k) = Ok p ->
  py_eval p 0 = 1 /\ py_degree p = (d / 2 + 3 * k + 1)%nat /\ nth (py_degree p) (float_coeffs p) 0 <> 0 /\
  (forall i, (i < k)%nat -> nth (2 * i + 1) (float_coeffs p) 0 = 0) /\ nth (2 * k + 1) (float_coeffs p) 0 <> 0.
Proof.
  intros d k p H. destruct (wendland_ok _ k _ (wl_l_ok d k)) as (q & H1 & F). assert (q = p) by congruence. subst q.
  pose proof (wend_0_pos (wl_l d k) k) as P.
  assert (D : py_degree p = (wl_l d k + 2 * k)%nat) by (unfold py_degree, pdegree; rewrite F, map_length, it_length; lia).
  assert (N : forall i, nth i (float_coeffs p) 0 = nth i (it (wl_l d k) k) 0 / wend (wl_l d k) k 0).
  { intros i. rewrite F. replace 0 with (0 / wend (wl_l d k) k 0) at 1 by (unfold Rdiv; ring). apply (map_nth (fun c => c / wend (wl_l d k) k 0)). }
  assert (Q : forall x, x <> 0 -> x / wend (wl_l d k) k 0 <> 0) by (intros x X; apply Rmult_integral_contrapositive_currified; [exact X|apply Rinv_neq_0_compat; lra]).
  split; [|split; [|split; [|split]]].
  - rewrite (eval_ok p _ _ F). field. lra.
  - rewrite D. unfold wl_l. lia.
  - rewrite N. apply Q. rewrite D. apply it_lead.
  - intros i Hi. rewrite N, it_odd by assumption. rr. unfold Rdiv. ring.
  - rewrite N. apply Q. apply it_kink. unfold wl_l. lia.
Qed.
Print Assumptions C38_coefficients.

(** The polynomial vanishes at 1 together with its first [d/2 + 2k] derivatives. *)
Theorem C38_boundary : forall d k p, wendland_poly (Z.of_nat d) (Z.of_nat k) = Ok p ->
  forall j, (j <= d / 2 + 2 * k)%nat -> Derive_n (py_eval p) j 1 = 0.
Proof.
  intros d k p H j Hj. destruct (wendland_ok _ k _ (wl_l_ok d k)) as (q & H1 & F). assert (q = p) by congruence. subst q.
  rewrite (Derive_n_ext _ (fun r => / wend (wl_l d k) k 0 * RPS (it (wl_l d k) k) r)) by (intros r; rewrite (eval_ok p _ _ F), it_eval; apply Rmult_comm).
  rewrite Derive_n_scal_l, Derive_n_RPS, van by (unfold wl_l; lia). ring.
Qed.
Print Assumptions C38_boundary.

(** On [0, 1) it is positive, and it decreases strictly from 1 to 0. *)
Theorem C38_positive : forall d k p, wendland_poly (Z.of_nat d) (Z.of_nat k) = Ok p ->
  (forall r, 0 <= r < 1 -> 0 < py_eval p r <= 1) /\ (forall a b, 0 <= a < b -> b <= 1 -> py_eval p b < py_eval p a).
Proof.
  intros d k p H. destruct (wendland_ok _ k _ (wl_l_ok d k)) as (q & H1 & F). assert (q = p) by congruence. subst q.
  pose proof (wend_0_pos (wl_l d k) k) as P. assert (I : 0 < / wend (wl_l d k) k 0) by now apply Rinv_0_lt_compat.
  assert (M : forall a b, 0 <= a < b -> b <= 1 -> py_eval p b < py_eval p a).
  { intros a b Hab Hb. rewrite !(eval_ok p _ _ F). apply Rmult_lt_compat_r; [exact I|]. apply wend_decreasing; try lra. unfold wl_l. lia. }
  split; [|exact M]. intros r Hr. split.
  - rewrite (eval_ok p _ _ F). apply Rmult_lt_0_compat; [now apply wend_pos|exact I].
  - destruct (Req_dec r 0) as [->|]; [rewrite (eval_ok p _ _ F); right; field; lra|]. left. apply Rlt_le_trans with (py_eval p 0); [apply M; lra|]. rewrite (eval_ok p _ _ F). right. field. lra.
Qed.
Print Assumptions C38_positive.

(** * Smoothness of the radial function *)
Lemma glue1 (F F' : R -> R) : (forall z, is_derive F z (F' z)) -> F 1 = 0 -> F' 1 = 0 ->
  forall z, is_derive (fun z => if Rle_dec z 1 then F z else 0) z (if Rle_dec z 1 then F' z else 0).
Proof.
  intros H Z0 Z1 z. destruct (Rlt_dec z 1) as [L|L].
  - apply is_derive_ext_loc with F; [|destruct (Rle_dec z 1); [apply H|lra]].
    assert (P : 0 < 1 - z) by lra. exists (mkposreal _ P). intros y Hy. unfold ball in Hy; cbn in Hy; unfold AbsRing_ball, abs, minus, plus, opp in Hy; cbn in Hy.
    apply Rabs_lt_between in Hy. destruct (Rle_dec y 1); [reflexivity|lra].
  - destruct (Req_dec z 1) as [->|N].
    + destruct (Rle_dec 1 1) as [_|]; [|lra]. rewrite Z1. apply is_derive_Reals. pose proof (H 1) as D. rewrite Z1 in D. apply is_derive_Reals in D.
      intros eps He. destruct (D eps He) as (del & Hd). exists del. intros h Hh0 Hh. specialize (Hd h Hh0 Hh). rewrite Z0 in Hd.
      destruct (Rle_dec 1 1); [|lra]. rewrite Z0. destruct (Rle_dec (1 + h) 1); [exact Hd|]. replace ((0 - 0) / h - 0) with 0 by (field; assumption). rewrite Rabs_R0. assumption.
    + apply is_derive_ext_loc with (fun _ => 0); [|destruct (Rle_dec z 1); [lra|apply @is_derive_const]].
      assert (P : 0 < z - 1) by lra. exists (mkposreal _ P). intros y Hy. unfold ball in Hy; cbn in Hy; unfold AbsRing_ball, abs, minus, plus, opp in Hy; cbn in Hy.
      apply Rabs_lt_between in Hy. destruct (Rle_dec y 1); [lra|reflexivity].
Qed.
Lemma glue_cont (F : R -> R) : (forall z, continuous F z) -> F 1 = 0 -> forall z, continuous (fun z => if Rle_dec z 1 then F z else 0) z.
Proof.
  intros H Z0 z. apply continuous_ext with (fun z => F (Rmin z 1)).
  - intros y. destruct (Rle_dec y 1); [rewrite Rmin_left by assumption; reflexivity|rewrite Rmin_right by lra; assumption].
  - apply continuous_comp; [|apply H]. apply continuity_pt_filterlim.
    apply (continuity_pt_ext (fun y => (y + 1 - Rabs (y - 1)) / 2)).
    + intros y. unfold Rmin. destruct (Rle_dec y 1); [rewrite Rabs_left1 by lra|rewrite Rabs_right by lra]; field.
    + assert (X : continuous (fun y : R => (y + 1 - Rabs (y - 1)) * / 2) z); [|apply continuity_pt_filterlim; exact X].
      apply (continuous_mult (fun y : R => y + 1 - Rabs (y - 1)) (fun _ => / 2)); [|apply continuous_const].
      apply (continuous_minus (fun y : R => y + 1) (fun y => Rabs (y - 1))).
      * apply (continuous_plus (fun y : R => y) (fun _ => 1)); [apply continuous_id|apply continuous_const].
      * apply (continuous_comp (fun y => y - 1) Rabs); [|apply continuous_Rabs].
        apply (continuous_minus (fun y : R => y) (fun _ => 1)); [apply continuous_id|apply continuous_const].
Qed.
Section Smooth.
Variables (cs : list R) (k : nat).
Hypothesis V : forall j, (j <= 2 * k)%nat -> RPS (Dn j cs) 1 = 0.
Hypothesis O : forall i, (i < k)%nat -> RPS (Dn (2 * i + 1) cs) 0 = 0.
Definition hh (n : nat) (z : R) : R := if Rle_dec z 1 then RPS (Dn n cs) z else 0.
Definition GG (n : nat) (u : R) : R := if Nat.even n then hh n (Rabs u) else sg u * hh n (Rabs u).
Lemma hh_derive n z : (S n <= 2 * k)%nat -> is_derive (hh n) z (hh (S n) z).
Proof. intros H. apply (glue1 (RPS (Dn n cs)) (RPS (Dn (S n) cs))); [intros; apply Dn_derive|apply V; lia|apply V; lia]. Qed.
Lemma hh_0 n : hh n 0 = RPS (Dn n cs) 0.
Proof. unfold hh. destruct (Rle_dec 0 1); [reflexivity|lra]. Qed.
Lemma odd_0 n : Nat.even n = false -> (n <= 2 * k)%nat -> RPS (Dn n cs) 0 = 0.
Proof. intros E H. assert (Od : Nat.odd n = true) by (rewrite <- Nat.negb_even, E; reflexivity). apply Nat.odd_spec in Od. destruct Od as [i ->]. apply O. lia. Qed.
Lemma GG_derive n u : (S n <= 2 * k)%nat -> is_derive (GG n) u (GG (S n) u).
Proof.
  intros H. unfold GG. rewrite Nat.even_succ, <- Nat.negb_even. destruct (Nat.even n) eqn:E; cbn [negb].
  - destruct n as [|n'].
    + apply (even_glue (hh 0) (hh 1)); [intros; now apply hh_derive|]. rewrite hh_0. apply odd_0; [reflexivity|lia].
    + assert (D : is_derive (fun v => hh (S n') (Rabs v)) u (sg u * hh (S (S n')) (Rabs u))); [|exact D].
      apply even_glue; [intros; now apply hh_derive|]. rewrite hh_0. apply odd_0; [|lia]. rewrite Nat.even_succ, <- Nat.negb_even, E. reflexivity.
  - apply odd_glue; [intros; now apply hh_derive|]. rewrite hh_0. apply odd_0; [exact E|lia].
Qed.
Lemma GG_Derive n : (n <= 2 * k)%nat -> forall u, Derive_n (fun u => hh 0 (Rabs u)) n u = GG n u.
Proof.
  induction n as [|n IH]; intros H u; [reflexivity|]. cbn [Derive_n]. rewrite (Derive_ext _ (GG n)) by (intros; apply IH; lia).
  apply is_derive_unique, GG_derive. lia.
Qed.
Lemma GG_cont u : continuous (GG (2 * k)) u.
Proof.
  unfold GG. replace (Nat.even (2 * k)) with true by (symmetry; apply Nat.even_spec; now exists k).
  apply (continuous_comp Rabs (hh (2 * k))); [apply continuous_Rabs|]. apply glue_cont; [intros; apply RPS_cont|apply V; lia].
Qed.
Lemma smooth : cont_diff (2 * k) (fun u => hh 0 (Rabs u)).
Proof.
  intros n H. split; intros x.
  - destruct n as [|n]; [exact I|]. cbn [ex_derive_n]. apply ex_derive_ext with (GG n); [intros; symmetry; apply GG_Derive; lia|]. eexists. apply GG_derive. lia.
  - apply continuous_ext with (GG n); [intros; symmetry; apply GG_Derive; lia|]. destruct (Nat.eq_dec n (2 * k)) as [->|]; [apply GG_cont|].
    apply @ex_derive_continuous. eexists. apply GG_derive. lia.
Qed.
Lemma sharp : RPS (Dn (2 * k + 1) cs) 0 <> 0 -> ~ ex_derive_n (fun u => hh 0 (Rabs u)) (2 * k + 1) 0.
Proof.
  intros N D. rewrite Nat.add_1_r in D. cbn [ex_derive_n] in D.
  apply (kink (RPS (Dn (2 * k) cs)) (RPS (Dn (S (2 * k)) cs)) 1); [intros; apply Dn_derive|now rewrite <- Nat.add_1_r|lra|].
  apply ex_derive_ext_loc with (Derive_n (fun u => hh 0 (Rabs u)) (2 * k)); [|exact D].
  exists (mkposreal 1 Rlt_0_1). intros y Hy. unfold ball in Hy; cbn in Hy; unfold AbsRing_ball, abs, minus, plus, opp in Hy; cbn in Hy. rewrite Ropp_0, Rplus_0_r in Hy.
  rewrite GG_Derive by lia. unfold GG. replace (Nat.even (2 * k)) with true by (symmetry; apply Nat.even_spec; now exists k).
  rewrite Rmult_1_l. unfold hh. destruct (Rle_dec (Rabs y) 1); [reflexivity|lra].
Qed.
End Smooth.

Lemma radial_hh d k p : wendland_poly (Z.of_nat d) (Z.of_nat k) = Ok p ->
  let cs := map (fun c => c / wend (wl_l d k) k 0) (it (wl_l d k) k) in
  (forall u, wendland_function p (Rabs u) = hh cs 0 (Rabs u)) /\
  (forall j, (j <= 2 * k)%nat -> RPS (Dn j cs) 1 = 0) /\ (forall i, (i < k)%nat -> RPS (Dn (2 * i + 1) cs) 0 = 0) /\ RPS (Dn (2 * k + 1) cs) 0 <> 0.
Proof.
  intros H cs. destruct (wendland_ok _ k _ (wl_l_ok d k)) as (q & H1 & F). assert (q = p) by congruence. subst q.
  pose proof (wend_0_pos (wl_l d k) k) as P. 
  assert (S : forall j x, RPS (Dn j cs) x = / wend (wl_l d k) k 0 * RPS (Dn j (it (wl_l d k) k)) x).
  { intros j x. rewrite <- !Derive_n_RPS. rewrite <- Derive_n_scal_l. apply Derive_n_ext. intros t. unfold cs. rewrite (f_equal (fun g => g t) (wend_div (wl_l d k) k (it (wl_l d k) k))). apply Rmult_comm. }
  split; [|split; [|split]].
  - intros u. unfold wendland_function, hh, Rleb. destruct (Rle_dec (Rabs u) 1); [|reflexivity]. rewrite (eval_ok p _ _ F). cbn [Dn]. rewrite <- (it_eval (wl_l d k) k (Rabs u)). symmetry. exact (f_equal (fun g => g (Rabs u)) (wend_div (wl_l d k) k (it (wl_l d k) k))).
  - intros j Hj. rewrite S, van by (unfold wl_l; lia). ring.
  - intros i Hi. rewrite S, Dn_odd_0 by assumption. ring.
  - rewrite S. apply Rmult_integral_contrapositive_currified; [apply Rinv_neq_0_compat; lra|]. rewrite RPS_0. intros E. apply Dn_nth in E. rewrite Nat.add_0_l in E. revert E. apply it_kink. unfold wl_l. lia.
Qed.
(** The radial function, continued to an even function, is the compactly supported Wendland function; it is
    [2k] times continuously differentiable on the whole line, and not [2k + 1] times differentiable at 0. *)
Theorem C38_smoothness : forall d k p, wendland_poly (Z.of_nat d) (Z.of_nat k) = Ok p ->
  (forall r, wendland_function p (Rabs r) = wend_radial (d / 2 + k + 1) k r) /\
  cont_diff (2 * k) (fun r => wendland_function p (Rabs r)) /\
  ~ ex_derive_n (fun r => wendland_function p (Rabs r)) (2 * k + 1) 0.
Proof.
  intros d k p H. destruct (radial_hh d k p H) as (R1 & R2 & R3 & R4). split; [|split].
  - intros r. unfold wendland_function, wend_radial, Rleb. destruct (Rle_dec (Rabs r) 1); [|reflexivity]. now apply C38_recursion.
  - replace (fun r => wendland_function p (Rabs r)) with (fun u => hh (map (fun c => c / wend (wl_l d k) k 0) (it (wl_l d k) k)) 0 (Rabs u)) by (extensionality u; symmetry; apply R1).
    now apply smooth.
  - replace (fun r => wendland_function p (Rabs r)) with (fun u => hh (map (fun c => c / wend (wl_l d k) k 0) (it (wl_l d k) k)) 0 (Rabs u)) by (extensionality u; symmetry; apply R1).
    now apply sharp.
Qed.
Print Assumptions C38_smoothness.

(** The covariance function: it is the radial Wendland function of the scaled distance, symmetric, one on the diagonal,
    with values in [0, 1] and zero beyond the support radius. *)
Theorem C38_kernel : forall sh k len w, mk_wendland sh (Z.of_nat k) len = Ok w ->
  let dist x0 x1 := sqrt (total (map (fun i => ((x0 i - x1 i) / len i) ^ 2) (all_indices sh))) in
  forall x0 x1,
  wendland_eval w x0 x1 = wend_radial (size sh / 2 + k + 1) k (dist x0 x1) /\
  wendland_eval w x0 x1 = wendland_eval w x1 x0 /\
  wendland_none w x0 = wendland_eval w x0 x0 /\ wendland_none w x0 = 1 /\
  0 <= wendland_eval w x0 x1 <= 1 /\
  (1 <= dist x0 x1 -> wendland_eval w x0 x1 = 0).
Proof.
  intros sh k len w H dist x0 x1. unfold mk_wendland in H. destruct (wendland_poly (Z.of_nat (size sh)) (Z.of_nat k)) as [p|] eqn:Hp; [|discriminate]. cbn [bind] in H. injection H as <-.
  assert (E : forall a b, bnorm sh (fun i => vdiff a b i * (1 / len i)) = dist a b).
  { intros a b. unfold bnorm, bnorm_sq, bsum, dist. f_equal. change (rsum) with total. f_equal. apply map_ext. intros i. unfold vdiff, Rdiv. ring. }
  assert (Sy : dist x1 x0 = dist x0 x1). { unfold dist. do 2 f_equal. apply map_ext. intros i. unfold Rdiv. ring. }
  assert (Z : dist x0 x0 = 0).
  { unfold dist. replace (total _) with 0; [apply sqrt_0|]. symmetry. generalize (all_indices sh). clear. induction l as [|i l IH]; [reflexivity|]. unfold total in *. cbn [map fold_right]. rewrite IH. unfold Rdiv.
  ring. }
  assert (P : 0 <= dist x0 x1) by apply sqrt_pos.
  unfold wendland_eval, wendland_none, wl_scale. cbn [wl_poly wl_shape wl_len]. rewrite !E.
  destruct (C38_smoothness _ _ _ Hp) as [R1 _]. destruct (C38_positive _ _ _ Hp) as [B _]. destruct (C38_coefficients _ _ _ Hp) as [V0 _].
  assert (V1 : py_eval p 1 = 0) by (apply (C38_boundary _ _ _ Hp 0); lia).
  assert (W0 : wendland_function p 0 = 1). { unfold wendland_function, Rleb. destruct (Rle_dec 0 1); [exact V0|lra]. }
  split; [|split; [|split; [|split; [|split]]]].
  - rewrite <- R1. f_equal. symmetry. now apply Rabs_right, Rle_ge.
  - now rewrite Sy.
  - now rewrite Z.
  - exact W0.
  - unfold wendland_function, Rleb. destruct (Rle_dec (dist x0 x1) 1) as [L|]; [|lra]. destruct (Req_dec (dist x0 x1) 1) as [->|]; [rewrite V1; lra|]. specialize (B (dist x0 x1) ltac:(lra)). lra.
  - intros G. unfold wendland_function, Rleb. destruct (Rle_dec (dist x0 x1) 1) as [L|]; [|reflexivity]. replace (dist x0 x1) with 1 by lra. exact V1.
Qed.
Print Assumptions C38_kernel.

(** The polynomials exist for every input dimension and smoothness, e.g. the C4 function in three dimensions. *)
Example C38_example : exists p, wendland_poly 3 2 = Ok p /\ py_degree p = 8%nat.
Proof.
  destruct (proj1 (C38_accepts 3 2) ltac:(cbn; lia)) as [p H]. exists p. split; [exact H|].
  change 3%Z with (Z.of_nat 3) in H. change 2%Z with (Z.of_nat 2) in H. apply (C38_coefficients _ _ _ H).
Qed.
