(** C75 for Wendland covariance functions, also at the edge of the support. *)
From Coq Require Import List Reals Bool Arith ZArith Lia Lra Psatz.
From Coq.Floats Require Import SpecFloat.
From Flocq Require Import Core Relative Plus_error BinarySingleNaN.
From Coquelicot Require Import Coquelicot.
From Verif Require Import Base NdArray PolyModel PolySpec PolyProofs PolyClassModel PolyCalc FunExprModel DiffopModel DiffopProofs LfoModel KernelModel WendlandModel WendlandProps AdModel AdSpec AdKernels AdProps AdCovModel AdCovProofs FloatModel FloatProofs FloatProps FloatRoundSpec FloatRound FloatErr FloatRoundProps FloatRangeSpec FloatRangeProps FloatUniformProps FloatMaternProps.
Import ListNotations.
Open Scope R_scope.
#[local] Existing Instance FloatRound.Hprec.
#[local] Existing Instance FloatRound.Hmax.
Notation u := u64.
Notation eta := eta64.

(** The sums of [|c_i|] and of [i |c_i|] over the coefficients [c_i] of a polynomial *)
Definition abs_sum (cs : list R) : R := fold_right Rplus 0 (map Rabs cs).
Definition slope (cs : list R) : R := fold_right Rplus 0 (map (fun i => INR i * Rabs (nth i cs 0)) (seq 0 (length cs))).

(** ** Polynomials between 0 and 1 *)
Lemma abs_sum_pos cs : 0 <= abs_sum cs.
Proof. induction cs as [|c cs IH]; unfold abs_sum in *; cbn; [lra|]. assert (H := Rabs_pos c). lra. Qed.
Lemma abs_sum_nth cs : abs_sum cs = fold_right Rplus 0 (map (fun i => Rabs (nth i cs 0)) (seq 0 (length cs))).
Proof. induction cs as [|c cs IH]; [reflexivity|]. cbn [length seq map fold_right nth]. rewrite <- seq_shift, map_map. unfold abs_sum in *. cbn [map fold_right]. now rewrite IH. Qed.
Lemma slope_cons c cs : slope (c :: cs) = abs_sum cs + slope cs.
Proof.
  unfold slope at 1. cbn [length seq map fold_right nth]. rewrite <- seq_shift, map_map. rewrite abs_sum_nth. unfold slope. change (INR 0) with 0. rewrite Rmult_0_l, Rplus_0_l.
  induction (seq 0 (length cs)) as [|i l IH]; cbn [map fold_right]; [lra|]. rewrite IH, S_INR. cbn [nth]. ring.
Qed.
Lemma slope_pos cs : 0 <= slope cs.
Proof. induction cs as [|c cs IH]; [cbn; lra|]. rewrite slope_cons. assert (H := abs_sum_pos cs). lra. Qed.
Lemma poly_abs cs z : 0 <= z <= 1 -> Rabs (poly_at cs z) <= abs_sum cs.
Proof.
  intros H. induction cs as [|c cs IH]; [cbn; rewrite Rabs_R0; apply Rle_refl|]. cbn [poly_at]. change (abs_sum (c :: cs)) with (Rabs c + abs_sum cs).
  eapply Rle_trans; [apply Rabs_triang|]. rewrite Rabs_mult, (Rabs_pos_eq z) by lra. assert (P := Rabs_pos (poly_at cs z)). nra.
Qed.
Lemma poly_diff cs a b : 0 <= a <= 1 -> 0 <= b <= 1 -> Rabs (poly_at cs a - poly_at cs b) <= slope cs * Rabs (a - b).
Proof.
  intros Ha Hb. induction cs as [|c cs IH]; [cbn; rewrite Rminus_diag_eq, Rabs_R0 by reflexivity; assert (P := Rabs_pos (a - b)); lra|].
  cbn [poly_at]. rewrite slope_cons. replace (c + a * poly_at cs a - (c + b * poly_at cs b)) with ((a - b) * poly_at cs a + b * (poly_at cs a - poly_at cs b)) by ring.
  eapply Rle_trans; [apply Rabs_triang|]. rewrite !Rabs_mult, (Rabs_pos_eq b) by lra. assert (A := poly_abs cs a Ha). assert (P := Rabs_pos (a - b)). assert (Q := Rabs_pos (poly_at cs a - poly_at cs b)). nra.
Qed.
Lemma geometric_le n q Q : 0 <= q <= Q -> 1 <= Q -> geometric n q <= INR n * Q ^ n.
Proof.
  intros H HQ. induction n as [|n IH]; [cbn; lra|]. rewrite S_INR. cbn [geometric pow]. assert (P : 1 <= Q ^ n) by now apply pow_R1_Rle.
  assert (I := pos_INR n). assert (T : q * geometric n q <= Q * (INR n * Q ^ n)).
  { apply Rle_trans with (q * (INR n * Q ^ n)); [apply Rmult_le_compat_l; lra|]. apply Rmult_le_compat_r; [apply Rmult_le_pos; lra|lra]. }
  nra.
Qed.
Lemma poly_at_peval (cs : list R) x : cs <> [] -> @peval RF cs x = poly_at cs x.
Proof.
  intros H. rewrite (horner_correct RF RF_laws) by exact H. clear H. induction cs as [|c cs IH]; [reflexivity|].
  rewrite (ps_cons RF RF_laws). cbn [poly_at]. rewrite IH. reflexivity.
Qed.

(** ** Horner's method between 0 and 1, with rounded coefficients *)
Lemma fhorner_fin lb cs r : fin (fhorner (map (l_cst lb) cs) r) -> List.Forall (fun c => fin (l_cst lb c)) cs.
Proof.
  induction cs as [|c cs IH]; [constructor|]. destruct cs as [|c' cs]; intros F; [repeat constructor; exact F|].
  change (fin (SFadd 53 1024 (SFmul 53 1024 (fhorner (map (l_cst lb) (c' :: cs)) r) r) (l_cst lb c))) in F.
  destruct (add_finite_args _ _ F) as [Fm Fc]. destruct (mul_finite_args _ _ Fm) as [Fw _]. constructor; [exact Fc|now apply IH].
Qed.
Lemma coeffs_near lb ue cs z : accurate lb ue -> List.Forall (fun c => fin (l_cst lb c)) cs -> 0 <= z <= 1 ->
  Rabs (poly_at (map (fun c => val (l_cst lb c)) cs) z - poly_at cs z) <= u * abs_sum cs + INR (length cs) * eta /\
  abs_sum (map (fun c => val (l_cst lb c)) cs) <= (1 + u) * abs_sum cs + INR (length cs) * eta.
Proof.
  intros Acc F Hz. induction F as [|c cs Fc F [I1 I2]]; [cbn; rewrite Rminus_diag_eq, Rabs_R0 by reflexivity; lra|].
  destruct (proj1 (proj2 Acc) c) as [_ E]. assert (R := rnd_error c). rewrite <- (E Fc) in R.
  cbn [map poly_at]. change (length (c :: cs)) with (S (length cs)). rewrite S_INR. unfold abs_sum in *. cbn [map fold_right]. set (v := val (l_cst lb c)) in *. set (A := poly_at (map _ cs) z) in *.
  split.
  - replace (v + z * A - (c + z * poly_at cs z)) with ((v - c) + z * (A - poly_at cs z)) by ring. eapply Rle_trans; [apply Rabs_triang|].
    rewrite Rabs_mult, (Rabs_pos_eq z) by lra. assert (P := Rabs_pos (A - poly_at cs z)). nra.
  - assert (T : Rabs v <= Rabs (v - c) + Rabs c) by (replace v with ((v - c) + c) at 1 by ring; apply Rabs_triang). lra.
Qed.
Lemma eta_tiny : eta * 16777216 <= u / 4.
Proof.
  unfold eta64, u64. replace (2 ^ 1075) with (2 ^ 53 * (4 * 16777216 * 2 ^ 996)) by (replace (4 * 16777216) with (2 ^ 26) by (cbn; lra); rewrite <- !pow_add; f_equal).
  assert (P : 0 < / 2 ^ 53) by (apply Rinv_0_lt_compat, pow_lt; lra). assert (Q : 1 <= 2 ^ 996) by (apply pow_R1_Rle; lra).
  rewrite Rinv_mult. assert (W : / (4 * 16777216 * 2 ^ 996) <= / (4 * 16777216)) by (apply Rinv_le_contravar; nra). nra.
Qed.
Lemma horner_unit lb ue cs r : accurate lb ue -> cs <> [] -> INR (length cs - 1) <= 1048000 -> 1 <= abs_sum cs -> valid r -> 0 <= val r <= 1 ->
  let v := fhorner (map (l_cst lb) cs) r in fin v ->
  Rabs (val v - poly_at cs (val r)) <= (2 * INR (length cs - 1) + 3) * abs_sum cs * u.
Proof.
  intros Acc NE Hn S1 Vr Hr v F. assert (FC := fhorner_fin _ _ _ F). destruct (coeffs_near lb ue cs (val r) Acc FC Hr) as [B1 B2].
  assert (VC : List.Forall valid (map (l_cst lb) cs)) by (apply List.Forall_forall; intros c Hc; apply in_map_iff in Hc as (c' & <- & _); apply (proj1 (proj2 Acc) c')).
  assert (HB := fhorner_bound (map (l_cst lb) cs) r VC Vr ltac:(destruct cs; [congruence|discriminate]) F). fold v in HB. rewrite map_map in HB.
  set (ch := map (fun c => val (l_cst lb c)) cs) in *. unfold horner_bound in HB. assert (Lh : length ch = length cs) by apply map_length. rewrite Lh in HB.
  assert (Lc : INR (length cs) = INR (length cs - 1) + 1) by (rewrite <- S_INR; f_equal; destruct cs; [congruence|cbn; lia]). rewrite Lc in *.
  set (n := (length cs - 1)%nat) in *. rewrite (Rabs_pos_eq (val r)) in HB by lra.
  assert (PA : poly_at (map Rabs ch) (val r) <= abs_sum ch).
  { eapply Rle_trans; [apply Rle_abs|]. eapply Rle_trans; [apply poly_abs; lra|]. right. unfold abs_sum. f_equal. rewrite map_map. apply map_ext. intros a. apply Rabs_Rabsolu. }
  assert (U := u_lt). assert (N := eta_lt). assert (ET := eta_tiny). assert (I := pos_INR n). assert (U2 : u * 9007199254740992 = 1) by (unfold u64; cbn; field).
  assert (G1 : 1 <= (1 + u) ^ 2) by apply ge1. assert (Q1 : 1 <= (1 + u) ^ (2 * n)) by apply ge1.
  assert (GE : geometric n ((1 + u) ^ 2 * val r) <= INR n * (1 + u) ^ (2 * n)).
  { rewrite pow_mult. apply geometric_le; [|exact G1]. split; [apply Rmult_le_pos; lra|]. nra. }
  assert (PB : (1 + u) ^ (2 * n) - 1 <= (2 * INR n + 1) * u).
  { assert (E2 : INR (2 * n) = 2 * INR n) by (rewrite mult_INR; reflexivity). eapply Rle_trans; [apply pow_bound; lra|]. rewrite E2. lra. }
  set (g := (1 + u) ^ (2 * n) - 1) in *. assert (GG : (1 + u) ^ (2 * n) = 1 + g) by (unfold g; ring).
  assert (G0 : 0 <= g) by (unfold g; lra). rewrite GG in GE. clearbody g.
  assert (n_u : (2 * INR n + 1) * u <= / 1024) by nra.
  assert (H1 : g * poly_at (map Rabs ch) (val r) <= (2 * INR n + 1) * u * ((1 + u) * abs_sum cs + (INR n + 1) * eta)).
  { eapply Rle_trans; [apply Rmult_le_compat_l; [exact G0|exact PA]|]. apply Rmult_le_compat; try assumption. apply abs_sum_pos. }
  assert (H2 : eta * ((2 + u) * geometric n ((1 + u) ^ 2 * val r)) <= eta * (4 * INR n)).
  { apply Rmult_le_compat_l; [lra|]. apply Rle_trans with ((2 + u) * (INR n * (1 + g))); [apply Rmult_le_compat_l; lra|].
    assert (INR n * (1 + g) <= INR n * (1 + / 1024)) by (apply Rmult_le_compat_l; lra). assert (INR n * (1 + g) * u <= INR n * (1 + / 1024) * / 1024) by (apply Rmult_le_compat; try lra; apply Rmult_le_pos; lra). lra. }
  replace (val v - poly_at cs (val r)) with ((val v - poly_at ch (val r)) + (poly_at ch (val r) - poly_at cs (val r))) by ring.
  eapply Rle_trans; [apply Rabs_triang|].
  assert (W0 : (2 * INR n + 1) * u * (u * abs_sum cs) <= / 1024 * (u * abs_sum cs)) by (apply Rmult_le_compat_r; [apply Rmult_le_pos|]; lra).
  assert (W1 : (2 * INR n + 1) * u * ((INR n + 1) * eta) <= / 1024 * ((INR n + 1) * eta)) by (apply Rmult_le_compat_r; [apply Rmult_le_pos|]; lra).
  assert (W2 : (6 * INR n + 2) * eta <= u / 4) by nra.
  assert (W3 : 0 <= INR n * eta) by (apply Rmult_le_pos; lra).
  assert (W4 : u * 1 <= u * abs_sum cs) by (apply Rmult_le_compat_l; lra).
  nra.
Qed.

(** ** Covariance functions *)
(** Wendland: for all points and lengthscales, unless something overflows or a scale factor is subnormal. *)
Theorem C75_wendland : forall lb ue sh k len w (x y : farr),
  accurate lb ue -> (forall i, valid (x i)) -> (forall i, valid (y i)) -> mk_wendland sh (Z.of_nat k) len = Ok w ->
  (forall i, In i (all_indices sh) -> / 2 ^ 1022 <= Rabs (/ len i)) -> INR (size sh) <= 1048576 -> INR k <= 1000 ->
  fin (run64 lb x y (dist_prog (wl_shape w) (wl_scale w))) -> fin (run64 lb x y (wendland_prog w)) ->
  let cs : list R := float_coeffs (wl_poly w) in let n := (size sh / 2 + 3 * k + 1)%nat in
  Rabs (val (run64 lb x y (wendland_prog w)) - wendland_eval w (fun i => val (x i)) (fun i => val (y i)))
  <= ((2 * INR n + 3) * abs_sum cs + (INR (size sh) + 11) * slope cs) * / 2 ^ 53.
Proof.
  intros lb ue sh k len w x y Acc Hx Hy Hw Hn Hsz Hk Fr Fw cs n. change (/ 2 ^ 53) with u.
  destruct (wend_coeffs sh k len w Hw) as (E1 & E2 & _).
  assert (Hp : wendland_poly (Z.of_nat (size sh)) (Z.of_nat k) = Ok (wl_poly w)).
  { unfold mk_wendland in Hw. destruct (wendland_poly _ _) as [q|]; [|discriminate]. injection Hw as <-. reflexivity. }
  destruct (C38_coefficients _ _ _ Hp) as (P0 & Deg & Lead & _). assert (P1 := C38_boundary _ _ _ Hp 0%nat ltac:(lia)). cbn [Derive_n] in P1.
  unfold py_degree, pdegree in Deg, Lead. fold cs in Deg, Lead. fold n in Deg.
  assert (NE : cs <> []) by (intros K; rewrite K in Lead; apply Lead; now destruct (_ - _)%nat).
  unfold py_eval in P0, P1. fold cs in P0, P1. rewrite poly_at_peval in P0, P1 by exact NE.
  assert (S1 : 1 <= abs_sum cs) by (rewrite <- P0, <- (Rabs_pos_eq (poly_at cs 0)) by lra; apply poly_abs; lra).
  assert (Ln : (@length R cs - 1)%nat = n) by exact Deg.
  assert (Hnb : INR n <= 1048000).
  { unfold n. assert (D2 : (2 * (size sh / 2) <= size sh)%nat) by (apply Nat.mul_div_le; lia). apply le_INR in D2. rewrite mult_INR in D2. change (INR 2) with 2 in D2.
    rewrite !plus_INR, mult_INR. cbn [INR]. lra. }
  assert (Hs : forall i, In i (all_indices (wl_shape w)) -> / 2 ^ 1022 <= Rabs (wl_scale w i)).
  { intros i Hi. rewrite E1 in Hi. unfold wl_scale. rewrite E2. unfold Rdiv. rewrite Rmult_1_l. now apply Hn. }
  destruct (sum_near lb ue x y (wl_scale w) Acc Hx Hy (all_indices (wl_shape w)) Hs) as [V N].
  change (run64 lb x y (dist_prog (wl_shape w) (wl_scale w))) with (SFsqrt 53 1024 (run64 lb x y (psq (wl_scale w) (all_indices (wl_shape w))))) in Fr.
  assert (EW : run64 lb x y (wendland_prog w) = if SFleb (SFsqrt 53 1024 (run64 lb x y (psq (wl_scale w) (all_indices (wl_shape w))))) (fone 53 1024)
                then fhorner (map (l_cst lb) cs) (SFsqrt 53 1024 (run64 lb x y (psq (wl_scale w) (all_indices (wl_shape w))))) else l_cst lb 0).
  { unfold run64, wendland_prog. cbn [frun]. fold cs. rewrite frun_horner by exact NE. reflexivity. }
  rewrite EW in *. clear EW.
  assert (Fs : fin (run64 lb x y (psq (wl_scale w) (all_indices (wl_shape w))))).
  { destruct (run64 lb x y (psq _ _)) as [[]|[]| |[] m e]; try reflexivity; try exact Fr. }
  destruct (N Fs) as [Psh N']. clear N. rename N' into N. rewrite length_all, E1 in N.
  unfold wendland_eval, wendland_function, Rleb. unfold py_eval. fold cs. rewrite poly_at_peval by exact NE. rewrite E1 in *.
  set (sz := size sh) in *. set (q := run64 lb x y (psq _ _)) in *. set (s := fold_right Rplus 0 _) in N.
  assert (Es : bnorm sh (fun i => vdiff (fun i => val (x i)) (fun i => val (y i)) i * wl_scale w i) = sqrt s).
  { unfold bnorm. f_equal. unfold bnorm_sq, bsum, rsum, s. f_equal. apply map_ext. intros i. unfold vdiff. ring. }
  rewrite Es. clear Es.
  assert (Ps : 0 <= s). { unfold s. generalize (all_indices sh). intros l. induction l as [|j l IH]; cbn; [lra|]. assert (H := Rle_0_sqr ((val (x j) - val (y j)) * wl_scale w j)). unfold Rsqr in H. lra. }
  unfold near in N. rewrite (Rabs_pos_eq s Ps) in N. clearbody s.
  destruct (eps_small sz Hsz) as [Z0 Z1]. destruct u_eta as (UE & N2 & U3). assert (U := u_lt). assert (Nt := eta_lt).
  assert (I := pos_INR sz). assert (In := pos_INR n). assert (U2 : u * 9007199254740992 = 1) by (unfold u64; cbn; field).
  set (d := (1 + u) ^ (8 + sz) - 1) in *. assert (D0 : 0 <= d) by (unfold d; assert (X := ge1 (8 + sz)); lra).
  assert (D : (1 + u) ^ (9 + sz) - 1 <= (INR sz + 10) * u).
  { eapply Rle_trans; [apply pow_bound; rewrite plus_INR; cbn [INR]; lra|]. rewrite plus_INR. cbn [INR]. apply Rmult_le_compat_r; lra. }
  assert (D' : (1 + u) ^ (9 + sz) - 1 = d + u * (1 + d)) by (unfold d; cbn [Nat.add pow]; ring). rewrite D' in D. clear D'.
  assert (D1 : (INR sz + 10) * u <= / 16777216) by nra.
  assert (UD : 0 <= u * d) by (apply Rmult_le_pos; lra).
  assert (SQ := sqrt_near d (eps_abs sz) s (val q) Ps Psh ltac:(lra) Z0 N).
  assert (SE : sqrt (eps_abs sz) <= u / 32). { rewrite <- (sqrt_square (u / 32)) by lra. apply sqrt_le_1_alt. lra. }
  set (r := SFsqrt 53 1024 q) in *. assert (Vr : valid r) by (now apply valid_sqrt).
  destruct (sqrt_ok q V Fs Psh) as [_ Er]. fold r in Er.
  assert (Pr : 0 <= val r) by (rewrite Er; apply rnd_nonneg, sqrt_pos).
  assert (Q0 := sqrt_pos s). assert (Q1 := sqrt_pos (val q)). assert (Qe := sqrt_pos (eps_abs sz)).
  set (d' := d + u * (1 + d)) in *.
  assert (NR : Rabs (val r - sqrt s) <= d' * sqrt s + u / 2).
  { assert (R1 := rnd_error (sqrt (val q))). rewrite <- Er in R1. rewrite (Rabs_pos_eq _ Q1) in R1.
    apply Rabs_le_inv in SQ. apply Rabs_le_inv in R1.
    assert (M : u * sqrt (val q) <= u * ((1 + d) * sqrt s + u / 32)) by (apply Rmult_le_compat_l; lra).
    assert (M2 : u * (u / 32) <= u * / 1024) by (apply Rmult_le_compat_l; lra).
    unfold d'. apply Rabs_le. lra. }
  assert (D0' : 0 <= d') by (unfold d'; assert (0 <= u * (1 + d)) by (apply Rmult_le_pos; lra); lra).
  set (z := sqrt s) in *. clearbody z d'. clear SQ SE Er.
  assert (SP := slope_pos cs).
  assert (NB : val r <= 1 \/ z <= 1 -> Rabs (val r - z) <= (INR sz + 11) * u).
  { intros H. apply Rabs_le_inv in NR. assert (u16 : u <= / 16777216) by lra. assert (z1 : z <= 1 + / 4194304). { destruct H; [|lra]. assert (d' * z <= / 16777216 * z) by (apply Rmult_le_compat_r; lra). lra. }
    assert (dz : d' * z <= (INR sz + 10) * u * (1 + / 4194304)) by (apply Rmult_le_compat; lra).
    assert (sz1 : (INR sz + 10) * u * / 4194304 <= u / 2) by nra. apply Rabs_le. lra. }
  rewrite (leb_ok r Vr Fr) in *. unfold Rle_bool in *. rewrite Rmult_plus_distr_r.
  assert (W : forall a b, 0 <= a <= 1 -> 0 <= b <= 1 -> Rabs (a - b) <= (INR sz + 11) * u -> Rabs (poly_at cs a - poly_at cs b) <= (INR sz + 11) * slope cs * u).
  { intros a b Ha Hb Hab. eapply Rle_trans; [now apply poly_diff|]. eapply Rle_trans; [apply Rmult_le_compat_l; [exact SP|exact Hab]|]. lra. }
  assert (HS : 0 <= (2 * INR n + 3) * abs_sum cs * u) by (repeat apply Rmult_le_pos; lra).
  assert (HL : 0 <= (INR sz + 11) * slope cs * u) by (repeat apply Rmult_le_pos; lra).
  assert (IN : forall v, v = fhorner (map (l_cst lb) cs) r -> fin v -> val r <= 1 -> Rabs (val v - (if Rle_dec z 1 then poly_at cs z else 0)) <= (2 * INR n + 3) * abs_sum cs * u + (INR sz + 11) * slope cs * u).
  { intros v -> Fv C. assert (HB : INR (@length R cs - 1) <= 1048000) by now rewrite Ln.
    assert (HH := horner_unit lb ue cs r Acc NE HB S1 Vr (conj Pr C) Fv). rewrite Ln in HH. set (v := fhorner _ r) in *.
    destruct (Rle_dec z 1) as [K|K].
    - assert (T := W (val r) z (conj Pr C) (conj Q0 K) (NB (or_introl C))). replace (val v - poly_at cs z) with ((val v - poly_at cs (val r)) + (poly_at cs (val r) - poly_at cs z)) by ring. eapply Rle_trans; [apply Rabs_triang|lra].
    - assert (B := NB (or_introl C)). apply Rabs_le_inv in B. assert (T := W (val r) 1 ltac:(lra) ltac:(lra) ltac:(apply Rabs_le; lra)). rewrite P1 in T.
      replace (val v - 0) with ((val v - poly_at cs (val r)) + (poly_at cs (val r) - 0)) by ring. eapply Rle_trans; [apply Rabs_triang|lra]. }
  destruct (Rcompare_spec (val r) 1) as [C|C|C]; [assert (G := IN _ eq_refl Fw ltac:(lra)); destruct (Rle_dec z 1); exact G|assert (G := IN _ eq_refl Fw ltac:(lra)); destruct (Rle_dec z 1); exact G|].
  destruct (proj1 (proj2 Acc) 0) as [_ E0]. rewrite (E0 Fw). unfold rnd64. rewrite round_0 by apply valid_rnd_N.
  destruct (Rle_dec z 1) as [K|K]; [|rewrite Rminus_diag_eq, Rabs_R0 by reflexivity; lra].
  assert (B := NB ltac:(lra)). apply Rabs_le_inv in B. assert (T := W 1 z ltac:(lra) ltac:(lra) ltac:(apply Rabs_le; lra)). rewrite P1 in T. lra.
Qed.

(** Lengthscale 1 and the points 0 and 1, at the edge of the support: the hypotheses of [C75_wendland] hold; the
    computed value is within 22 roundoffs of 0. *)
Example C75_ex_wendland : forall w, mk_wendland [] 0 (fun _ => 1) = Ok w ->
  wendland_eval w (fun i => val (pt0 i)) (fun i => val (pt1 i)) = 0 /\
  Rabs (val (run64 exact_lib pt0 pt1 (wendland_prog w))) <= 22 * / 2 ^ 53.
Proof.
  intros w Hw. destruct fone_val as (V1 & F1 & E1).
  assert (T : 1024 <= 2 ^ 40) by (replace 1024 with (2 ^ 10) by ring; apply Rle_pow; [lra|lia]).
  assert (W0 : within (pt0 []) 1) by (split; [reflexivity|]; split; [reflexivity|]; change (Rabs 0 <= 1); rewrite Rabs_R0; lra).
  assert (W1 : within (pt1 []) 1) by (split; [exact V1|]; split; [exact F1|]; unfold pt1; rewrite E1, Rabs_R1; lra).
  assert (EV : wendland_eval w (fun i => val (pt0 i)) (fun i => val (pt1 i)) = 0).
  { apply (C38_kernel [] 0 (fun _ => 1) w Hw). change (all_indices []) with [@nil nat]. cbn [map]. unfold pt1. rewrite E1. change (val (pt0 [])) with 0.
    match goal with |- 1 <= sqrt ?t => replace t with 1 by (cbn; field) end. rewrite sqrt_1. lra. }
  split; [exact EV|].
  assert (B := C75_wendland exact_lib (2 * u) [] 0 (fun _ => 1) w pt0 pt1 exact_lib_accurate (fun _ => proj1 W0) (fun _ => proj1 W1) Hw).
  destruct (wend_coeffs [] 0 _ w Hw) as (S1 & S2 & C).
  assert (CS : float_coeffs (wl_poly w) = [1; -1]).
  { rewrite C. change (map (fun c => c / (1 - 0) ^ 1) (WendlandProofs.base 1) = [1; -1]). cbn. f_equal; [field|]. f_equal. field. }
  cbv zeta in B. rewrite CS, EV in B. rewrite Rminus_0_r in B.
  assert (B1 := sub_small _ _ _ _ W0 W1 ltac:(lra)).
  assert (Sc : wl_scale w [] = 1) by (unfold wl_scale; rewrite S2; field).
  assert (B2 := to_small (wl_scale w []) 1 ltac:(rewrite Sc, Rabs_R1; lra) ltac:(lra)).
  assert (B3 := mul_small _ _ _ _ B1 B2 ltac:(lra)).
  assert (B4 := mul_small _ _ _ _ B3 B3 ltac:(lra)).
  assert (B0 := to_small 0 0 ltac:(rewrite Rabs_R0; lra) ltac:(lra)).
  assert (B5 := add_small _ _ _ _ B4 B0 ltac:(lra)).
  set (d := SFsub 53 1024 (pt0 []) (pt1 [])) in *. set (m := SFmul 53 1024 d (to_float (wl_scale w []))) in *.
  set (t := SFadd 53 1024 (SFmul 53 1024 m m) (to_float 0)) in *.
  assert (Pt : 0 <= val t).
  { unfold t. assert (Z : val (to_float 0) = 0). { destruct (to_float_ok 0) as (_ & E & _). rewrite (E (proj1 (proj2 B0))). unfold rnd64. apply round_0. typeclasses eauto. }
    rewrite (proj2 (add_ok _ _ (proj1 B4) (proj1 B0)) (proj1 (proj2 B5))), Z, Rplus_0_r. apply rnd_nonneg. rewrite (proj2 (mul_ok _ _ (proj1 B3) (proj1 B3)) (proj1 (proj2 B4))). apply rnd_nonneg. apply Rle_0_sqr. }
  assert (B6 := sqrt_small _ _ B5 Pt). set (r := SFsqrt 53 1024 t) in *.
  assert (C1 := to_small 1 1 ltac:(rewrite Rabs_R1; lra) ltac:(lra)).
  assert (C2 := to_small (-1) 1 ltac:(rewrite Rabs_left; lra) ltac:(lra)).
  assert (B7 := mul_small _ _ _ _ C2 B6 ltac:(lra)).
  assert (B8 := add_small _ _ _ _ B7 C1 ltac:(lra)).
  assert (ER : run64 exact_lib pt0 pt1 (dist_prog (wl_shape w) (wl_scale w)) = r) by (rewrite S1; reflexivity).
  eapply Rle_trans; [apply B|].
  - intros i _. rewrite Rinv_1, Rabs_R1. rewrite <- Rinv_1. apply Rinv_le_contravar; [lra|apply pow_R1_Rle; lra].
  - cbn. lra.
  - cbn. lra.
  - rewrite ER. apply B6.
  - change (run64 exact_lib pt0 pt1 (wendland_prog w)) with (if SFleb (run64 exact_lib pt0 pt1 (dist_prog (wl_shape w) (wl_scale w))) (fone 53 1024) then run64 exact_lib pt0 pt1 (horner_prog (float_coeffs (wl_poly w)) (dist_prog (wl_shape w) (wl_scale w))) else to_float 0).
    destruct (SFleb _ _); [|apply B0]. unfold run64. rewrite CS, frun_horner by discriminate. fold (run64 exact_lib pt0 pt1 (dist_prog (wl_shape w) (wl_scale w))). rewrite ER. exact (proj1 (proj2 B8)).
  - unfold abs_sum, slope. cbn [map fold_right length seq nth size]. change (INR 0) with 0. change (INR 1) with 1. rewrite Rabs_R1, (Rabs_left (-1)) by lra. change (/ 2 ^ 53) with u. assert (U := u_lt). cbn. lra.
Qed.
Print Assumptions C75_wendland.
