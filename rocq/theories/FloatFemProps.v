(** C80: finite element basis functions in double precision. *)
From Coq Require Import List Reals Bool Arith ZArith Lia Lra Psatz.
From Coq.Floats Require Import SpecFloat.
From Flocq Require Import Core Relative BinarySingleNaN.
From Verif Require Import Base FloatModel FloatProofs FloatRoundSpec FloatRound FloatErr FloatRoundProps FloatRangeSpec FloatRangeProps FloatUniformProps FloatGridModel FloatGridProps FloatFemModel.
Import ListNotations.
Open Scope R_scope.
#[local] Existing Instance FloatRound.Hprec.
#[local] Existing Instance FloatRound.Hmax.
Notation u := u64.

(** ** Specification *)
(** The piecewise linear function with value 1 at [c] and 0 up to [l] and from [r] on *)
Definition hat (l c r x : R) : R := Rmax 0 (Rmin ((x - l) / (c - l)) ((r - x) / (r - c))).
Definition point_ok (a : spec_float) : Prop := valid a /\ fin a /\ Rabs (val a) <= 2 ^ 1020.
(** Increasing points that are at least 2^-1021 apart *)
Definition good_grid (g : list spec_float) : Prop :=
  (forall i, (i < length g)%nat -> point_ok (fat g i)) /\
  (forall i, (S i < length g)%nat -> / 2 ^ 1021 <= val (fat g (S i)) - val (fat g i)).
(** The basis function [i] of the points [g], cut off outside the inner points if [z] is false *)
Definition ref_basis (g : list spec_float) (z : bool) (i : nat) (x : R) : R :=
  let v k := val (fat g k) in
  if z then hat (v i) (v (i + 1)%nat) (v (i + 2)%nat) x
  else if Rlt_bool x (v 1%nat) || Rlt_bool (v (length g - 2)%nat) x then 0
  else hat (v i) (v (i + 1)%nat) (v (i + 2)%nat) x.

(** ** One flank *)
Lemma rnd_pow e : (-1074 <= e)%Z -> rnd64 (bpow radix2 e) = bpow radix2 e.
Proof. intros H. apply round_generic; [apply valid_rnd_N|]. apply generic_format_bpow. unfold FLT_exp. lia. Qed.
Lemma big_pow n : 2 ^ n = bpow radix2 (Z.of_nat n).
Proof. rewrite bpow_powerRZ, <- pow_powerRZ. reflexivity. Qed.
Lemma rnd_big n : rnd64 (2 ^ n) = 2 ^ n.
Proof. rewrite big_pow. apply rnd_pow. lia. Qed.
Lemma rnd_small n : (n <= 1074)%nat -> rnd64 (/ 2 ^ n) = / 2 ^ n.
Proof. intros H. rewrite big_pow, <- bpow_opp. apply rnd_pow. lia. Qed.
Lemma rnd_one_u : rnd64 (1 + u) = 1.
Proof.
  set (o := S754_finite false 4503599627370496 (-52)). set (h := S754_finite false 4503599627370496 (-105)).
  assert (Vo : valid o) by reflexivity. assert (Vh : valid h) by reflexivity.
  assert (E : SFadd 53 1024 o h = o) by (vm_compute; reflexivity). assert (C := proj2 (add_ok o h Vo Vh)). rewrite E in C. specialize (C eq_refl).
  assert (Eo : val o = 1) by (unfold val, o, SF2R, F2R; cbn; lra). assert (Eh : val h = u) by (unfold val, h, SF2R, F2R, u64; cbn; lra).
  rewrite Eo, Eh in C. symmetry. exact C.
Qed.
Lemma rnd_one_minus : rnd64 (1 - u) = 1 - u.
Proof.
  set (h := S754_finite false 9007199254740991 (-53)). assert (Vh : valid h) by reflexivity.
  assert (Eh : val h = 1 - u) by (unfold val, h, SF2R, F2R, u64; cbn; lra). rewrite <- Eh. now apply rnd_id.
Qed.
Lemma sub_point p q : point_ok p -> point_ok q -> valid (fsub p q) /\ fin (fsub p q) /\ val (fsub p q) = rnd64 (val p - val q) /\
  Rabs (val (fsub p q) - (val p - val q)) <= u * Rabs (val p - val q) /\ Rabs (val p - val q) <= 2 ^ 1021 /\ Rabs (val (fsub p q)) <= 2 ^ 1021.
Proof.
  intros (Vp & Fp & Bp) (Vq & Fq & Bq). assert (T : 2 ^ 1021 = 2 * 2 ^ 1020) by (rewrite (tech_pow_Rmult 2 1020); reflexivity).
  assert (R := rnd_big 1021). assert (T' : 2 ^ 1021 < 2 ^ 1024) by (apply Rlt_pow; [lra|lia]).
  assert (B : Rabs (val p - val q) <= 2 ^ 1021).
  { rewrite T. unfold Rminus. eapply Rle_trans; [apply Rabs_triang|]. rewrite Rabs_Ropp. clear - Bp Bq. revert Bp Bq. generalize (2 ^ 1020). intros. lra. }
  assert (B' : Rabs (rnd64 (val p - val q)) <= 2 ^ 1021).
  { apply Rabs_le_inv in B. destruct B as [B1 B2]. apply rnd_mono in B1, B2. unfold rnd64 in B1 at 1. rewrite round_NE_opp in B1. fold (rnd64 (2 ^ 1021)) in B1. rewrite R in B1, B2. now apply Rabs_le. }
  assert (F : fin (fsub p q)). { apply (sub_ok p q Vp Vq). split; [exact Fp|]. split; [exact Fq|]. unfold no_overflow. eapply Rle_lt_trans; eassumption. }
  assert (E := proj2 (sub_ok p q Vp Vq) F). split; [now apply valid_sub|]. split; [exact F|]. split; [exact E|]. rewrite E. split; [|split; assumption].
  assert (G := rnd_plus (val p) (- val q) (val_format p Vp) (generic_format_opp _ _ _ (val_format q Vq))). rewrite Rplus_0_r in G. exact G.
Qed.
Lemma factor_ok s t : point_ok s -> point_ok t -> / 2 ^ 1021 <= val s - val t ->
  let d := val (fsub s t) in let L := fdiv (SFone 53 1024) (fsub s t) in
  valid L /\ fin L /\ 0 < d /\ Rabs (val L * d - 1) <= u /\ 0 < val L.
Proof.
  intros Hs Ht D d L. destruct (sub_point s t Hs Ht) as (V & F & E & _ & _ & B). fold d in E, B. destruct fone_val as (V1 & F1 & E1). change (fone 53 1024) with (SFone 53 1024) in *.
  assert (P : 0 < 2 ^ 1021) by (apply pow_lt; lra). assert (Q : / 2 ^ 1021 <= d) by (rewrite E, <- (rnd_small 1021) by lia; now apply rnd_mono).
  assert (P' : 0 < / 2 ^ 1021) by now apply Rinv_0_lt_compat. assert (d0 : 0 < d) by (eapply Rlt_le_trans; eassumption).
  rewrite Rabs_pos_eq in B by now apply Rlt_le. assert (I1 : / 2 ^ 1021 <= / d) by (apply Rinv_le_contravar; assumption).
  assert (I2 : / d <= 2 ^ 1021). { rewrite <- (Rinv_involutive (2 ^ 1021)) by now apply Rgt_not_eq. apply Rinv_le_contravar; assumption. }
  destruct (div_ok (SFone 53 1024) (fsub s t) V1 V F1 (Rgt_not_eq _ _ d0)) as [C1 C2]. fold d L in C1, C2. rewrite E1 in *. unfold Rdiv in C1, C2. rewrite Rmult_1_l in *.
  assert (J1 := rnd_mono _ _ I1). assert (J2 := rnd_mono _ _ I2). rewrite rnd_small in J1 by lia. rewrite rnd_big in J2.
  assert (FL : fin L). { apply C1. unfold no_overflow. rewrite Rabs_pos_eq by (eapply Rle_trans; [apply Rlt_le, P'|exact J1]). eapply Rle_lt_trans; [exact J2|]. apply Rlt_pow; [lra|lia]. }
  split; [now apply valid_div|]. split; [exact FL|]. split; [exact d0|]. rewrite (C2 FL). split; [|eapply Rlt_le_trans; [exact P'|exact J1]].
  assert (N : normal (/ d)). { unfold normal. rewrite Rabs_pos_eq by (apply Rlt_le, Rinv_0_lt_compat, d0). eapply Rle_trans; [|exact I1]. apply Rinv_le_contravar; [exact P|]. apply Rle_pow; [lra|lia]. }
  apply near_cst in N. unfold near in N. rewrite (Rabs_pos_eq (/ d)) in N by (apply Rlt_le, Rinv_0_lt_compat, d0).
  replace (rnd64 (/ d) * d - 1) with ((rnd64 (/ d) - / d) * d) by (field; now apply Rgt_not_eq). rewrite Rabs_mult, (Rabs_pos_eq d) by now apply Rlt_le.
  apply Rmult_le_compat_r with (r := d) in N; [|now apply Rlt_le]. eapply Rle_trans; [exact N|]. right. field. now apply Rgt_not_eq.
Qed.
Lemma flank_real A D a d L : 0 <= A <= D -> 0 < D -> 0 < d -> 0 <= a -> Rabs (a - A) <= u * A -> Rabs (d - D) <= u * D -> Rabs (L * d - 1) <= u ->
  Rabs (a * L - A / D) <= (3 * u + 12 * u * u).
Proof.
  intros HA HD Hd Ha Ea Ed EL. assert (U := u_lt). destruct u_eta as (_ & _ & U3). assert (N0 : D <> 0) by lra.
  set (t := A / D). set (al := a / D). set (la := L * D). set (q := d / D).
  assert (Ht : 0 <= t <= 1). { unfold t, Rdiv. split; [apply Rmult_le_pos; [lra|apply Rlt_le, Rinv_0_lt_compat, HD]|]. apply Rmult_le_reg_r with D; [exact HD|]. rewrite Rmult_assoc, Rinv_l by exact N0. lra. }
  assert (Hal : Rabs (al - t) <= u * t).
  { unfold al, t. replace (a / D - A / D) with ((a - A) * / D) by (field; exact N0). rewrite Rabs_mult, (Rabs_pos_eq (/ D)) by (apply Rlt_le, Rinv_0_lt_compat, HD).
    unfold Rdiv. rewrite <- Rmult_assoc. apply Rmult_le_compat_r; [apply Rlt_le, Rinv_0_lt_compat, HD|exact Ea]. }
  assert (Hq : Rabs (q - 1) <= u).
  { unfold q. replace (d / D - 1) with ((d - D) * / D) by (field; exact N0). rewrite Rabs_mult, (Rabs_pos_eq (/ D)) by (apply Rlt_le, Rinv_0_lt_compat, HD).
    apply Rmult_le_reg_r with D; [exact HD|]. rewrite Rmult_assoc, Rinv_l, Rmult_1_r by exact N0. exact Ed. }
  assert (Hla : L * d = la * q) by (unfold la, q; field; exact N0). replace (a * L) with (al * la) by (unfold al, la; field; exact N0). rewrite Hla in EL.
  apply Rabs_le_inv in Hal, Hq, EL. assert (la0 : 0 < la) by nra.
  assert (Lu : la <= 1 + 2 * u + 4 * u * u). { apply Rnot_lt_le. intros K. assert ((1 + 2 * u + 4 * u * u) * (1 - u) < la * q) by nra. nra. }
  assert (Ll : 1 - 2 * u <= la). { apply Rnot_lt_le. intros K. assert (la * q <= la * (1 + u)) by nra. nra. }
  apply Rabs_le. split.
  - assert (t * (1 - u) * (1 - 2 * u) <= al * la) by (apply Rmult_le_compat; nra). nra.
  - assert (al * la <= t * (1 + u) * (1 + 2 * u + 4 * u * u)) by (apply Rmult_le_compat; nra). nra.
Qed.
Lemma flank p q s t : point_ok p -> point_ok q -> point_ok s -> point_ok t -> / 2 ^ 1021 <= val s - val t -> 0 <= val p - val q <= val s - val t ->
  let y := fmul (fsub p q) (fdiv (SFone 53 1024) (fsub s t)) in
  valid y /\ fin y /\ 0 <= val y <= 1 /\ Rabs (val y - (val p - val q) / (val s - val t)) <= 5 * u /\
  (val p - val q = val s - val t -> 1 - u <= val y) /\ (val p - val q = 0 -> val y = 0).
Proof.
  intros Hp Hq Hs Ht HD HA y. destruct (factor_ok s t Hs Ht HD) as (VL & FL & d0 & EL & L0). destruct (sub_point p q Hp Hq) as (Va & Fa & Ea & Na & _). destruct (sub_point s t Hs Ht) as (Vd & Fd & Ed & Nd & _).
  assert (D0 : 0 < val s - val t) by (eapply Rlt_le_trans; [|exact HD]; apply Rinv_0_lt_compat, pow_lt; lra). clear HD.
  set (a := fsub p q) in *. set (d := fsub s t) in *. set (L := fdiv (SFone 53 1024) d) in *. set (A := val p - val q) in *. set (D := val s - val t) in *.
  rewrite (Rabs_pos_eq A) in Na by lra. rewrite (Rabs_pos_eq D) in Nd by lra. assert (a0 : 0 <= val a) by (rewrite Ea; apply rnd_nonneg; lra).
  assert (ad : val a <= val d) by (rewrite Ea, Ed; apply rnd_mono; lra). assert (U := u_lt). destruct u_eta as (U1 & _ & U3). assert (N0 := eta_lt).
  assert (EL' := EL). apply Rabs_le_inv in EL'. assert (Pu : val a * val L <= 1 + u) by nra. assert (Pl : 0 <= val a * val L) by nra.
  assert (Y1 := rnd_mono _ _ Pu). rewrite rnd_one_u in Y1. assert (Y0 := rnd_nonneg _ Pl).
  assert (F : fin y). { apply (mul_ok a L Va VL). split; [exact Fa|]. split; [exact FL|]. unfold no_overflow. rewrite Rabs_pos_eq by exact Y0. eapply Rle_lt_trans; [exact Y1|]. apply Rlt_pow_R1; [lra|lia]. }
  split; [now apply valid_mul|]. split; [exact F|]. assert (Ey : val y = rnd64 (val a * val L)) by exact (proj2 (mul_ok a L Va VL) F). rewrite Ey. split; [lra|]. split; [|split].
  - assert (K := flank_real A D (val a) (val d) (val L) HA D0 d0 a0 Na Nd EL). assert (R := rnd_error (val a * val L)). rewrite (Rabs_pos_eq (val a * val L)) in R by exact Pl.
    apply Rabs_le_inv in K, R. apply Rabs_le. nra.
  - intros EA. rewrite <- rnd_one_minus. apply rnd_mono. assert (val a = val d) by (rewrite Ea, Ed, EA; reflexivity). nra.
  - intros EA. rewrite Ea, EA. unfold rnd64 at 2. rewrite round_0 by apply valid_rnd_N. rewrite Rmult_0_l. unfold rnd64. apply round_0, valid_rnd_N.
Qed.
Lemma max_pos v : valid v -> fin v -> 0 <= val v -> valid (fmaximum0 v) /\ fin (fmaximum0 v) /\ val (fmaximum0 v) = val v.
Proof.
  intros V F P. unfold fmaximum0. destruct v as [s|s| |s m e]; try discriminate F; [destruct s; repeat split; reflexivity|]. rewrite ltb_val by (reflexivity || assumption).
  destruct (Rlt_bool_spec (val (S754_zero false)) (val (S754_finite s m e))) as [K|K]; [auto|]. change (val (S754_zero false)) with 0 in *. repeat split; try reflexivity. cbn [val SF2R] in *. change (val (S754_zero false)) with 0. lra.
Qed.
Lemma max_neg v : nonneg (SFopp v) -> fmaximum0 v = S754_zero false.
Proof. destruct v as [[]|[]| |[] m e]; cbn; intros []; reflexivity. Qed.
Lemma max_zero v : valid v -> fin v -> val v = 0 -> fmaximum0 v = S754_zero false.
Proof.
  intros V F E. unfold fmaximum0. destruct v as [s|s| |s m e]; try discriminate F; [destruct s; reflexivity|]. rewrite ltb_val by (reflexivity || assumption). rewrite E. change (val (S754_zero false)) with 0.
  rewrite Rlt_bool_false by lra. reflexivity.
Qed.
Lemma neg_opp a : fin a -> val a <= 0 -> nonneg (SFopp a).
Proof.
  destruct a as [s|s| |s m e]; intros F P; try discriminate F; [exact I|]. destruct s; [exact I|]. exfalso. cbn in P. assert (K := F2R_gt_0 radix2 (Float radix2 (Zpos m) e) eq_refl). cbn in K, P. apply (Rlt_irrefl 0). eapply Rlt_le_trans; eassumption.
Qed.
Lemma pos_of a : fin a -> 0 < val a -> nonneg a.
Proof.
  destruct a as [s|s| |s m e]; intros F P; try discriminate F; [exact I|]. destruct s; [|exact I]. exfalso. cbn in P. assert (K := F2R_lt_0 radix2 (Float radix2 (Zneg m) e) eq_refl). cbn in K, P. apply (Rlt_irrefl 0). eapply Rlt_trans; eassumption.
Qed.
Lemma flank_neg p q s t : point_ok p -> point_ok q -> point_ok s -> point_ok t -> / 2 ^ 1021 <= val s - val t -> val p - val q <= 0 ->
  fmaximum0 (fmul (fsub p q) (fdiv (SFone 53 1024) (fsub s t))) = S754_zero false.
Proof.
  intros Hp Hq Hs Ht HD HA. destruct (factor_ok s t Hs Ht HD) as (VL & FL & d0 & EL & L0). destruct (sub_point p q Hp Hq) as (Va & Fa & Ea & _).
  apply max_neg. rewrite <- mul_opp_l. apply mul_nonneg; [now apply valid_opp|exact VL| |now apply pos_of|].
  - apply neg_opp; [exact Fa|]. rewrite Ea. replace 0 with (rnd64 0) by (unfold rnd64; apply round_0, valid_rnd_N). now apply rnd_mono.
  - clear - Fa FL. set (a := fsub p q) in *. set (L := fdiv _ _) in *. clearbody a L. destruct a, L; try discriminate Fa; try discriminate FL; unfold inf_zero; cbn; firstorder congruence.
Qed.

(** ** Hat functions *)
Lemma div_unit n d : 0 < d -> (n <= d -> n / d <= 1) /\ (d <= n -> 1 <= n / d) /\ (0 <= n -> 0 <= n / d) /\ (n <= 0 -> n / d <= 0).
Proof.
  intros H. assert (I : 0 < / d) by now apply Rinv_0_lt_compat. assert (E : d * / d = 1) by (field; lra). unfold Rdiv. repeat split; intros K; nra.
Qed.
Lemma hat_real l c r x : l < c -> c < r ->
  (l <= x <= c -> hat l c r x = (x - l) / (c - l)) /\ (c <= x <= r -> hat l c r x = (r - x) / (r - c)) /\ (x <= l \/ r <= x -> hat l c r x = 0).
Proof.
  intros H1 H2. unfold hat. destruct (div_unit (x - l) (c - l) ltac:(lra)) as (A1 & A2 & A3 & A4). destruct (div_unit (r - x) (r - c) ltac:(lra)) as (B1 & B2 & B3 & B4). repeat split.
  - intros K. rewrite Rmin_left; [rewrite Rmax_right; [reflexivity|apply A3; lra]|]. apply Rle_trans with 1; [apply A1; lra|apply B2; lra].
  - intros K. rewrite Rmin_right; [rewrite Rmax_right; [reflexivity|apply B3; lra]|]. apply Rle_trans with 1; [apply B1; lra|apply A2; lra].
  - intros K. apply Rmax_left. destruct K as [K|K]; [eapply Rle_trans; [apply Rmin_l|apply A4; lra]|eapply Rle_trans; [apply Rmin_r|apply B4; lra]].
Qed.
Lemma spaced_lt a b : / 2 ^ 1021 <= b - a -> a < b.
Proof. intros H. assert (P : 0 < / 2 ^ 1021) by (apply Rinv_0_lt_compat, pow_lt; lra). apply Rminus_lt. revert H P. generalize (/ 2 ^ 1021). intros; lra. Qed.
Lemma hat_value_ok b i x : good_grid (fb_grid b) -> (i < fb_len b)%nat -> point_ok x ->
  let l := val (fx_im1 b i) in let c := val (fx_i b i) in let r := val (fx_ip1 b i) in let v := fhat_value b i x in
  valid v /\ fin v /\ 0 <= val v <= 1 /\ Rabs (val v - hat l c r (val x)) <= 5 * u /\
  (val x <= l \/ r <= val x -> v = S754_zero false) /\ (val x = c -> 1 - u <= val v) /\ l < c < r.
Proof.
  intros [G1 G2] Hi Hx l c r v. unfold fb_len in Hi.
  assert (Pl : point_ok (fx_im1 b i)) by (apply G1; lia). assert (Pc : point_ok (fx_i b i)) by (apply G1; lia). assert (Pr : point_ok (fx_ip1 b i)) by (apply G1; lia).
  assert (S1 : / 2 ^ 1021 <= c - l). { unfold c, l, fx_i, fx_im1. replace (i + 1)%nat with (S i) by lia. apply G2. lia. }
  assert (S2 : / 2 ^ 1021 <= r - c). { unfold c, r, fx_i, fx_ip1. replace (i + 2)%nat with (S (i + 1)) by lia. apply G2. lia. }
  assert (L1 := spaced_lt _ _ S1). assert (L2 := spaced_lt _ _ S2). destruct (hat_real l c r (val x) L1 L2) as (H1 & H2 & H3). assert (U := u_lt).
  assert (Z : forall w, w = S754_zero false -> hat l c r (val x) = 0 -> val x <> c -> valid w /\ fin w /\ 0 <= val w <= 1 /\ Rabs (val w - hat l c r (val x)) <= 5 * u /\
    (val x <= l \/ r <= val x -> w = S754_zero false) /\ (val x = c -> 1 - u <= val w) /\ l < c < r).
  { intros w -> E N. rewrite E. change (val (S754_zero false)) with 0. rewrite Rminus_0_r, Rabs_R0. repeat split; try reflexivity; try lra; intros; try reflexivity; try contradiction. }
  unfold v, fhat_value, fleft_factor, fright_factor. destruct Hx as (Vx & Fx & Bx). destruct Pc as (Vc & Fc & Bc). rewrite ltb_val by assumption. fold c.
  destruct (Rlt_bool_spec (val x) c) as [K|K].
  - destruct (Rle_or_lt (val x) l) as [K'|K'].
    + apply Z; [|apply H3; now left|lra]. apply flank_neg; try assumption; try (split; [|split]; assumption). fold l. lra.
    + assert (E := flank x (fx_im1 b i) (fx_i b i) (fx_im1 b i) (conj Vx (conj Fx Bx)) Pl (conj Vc (conj Fc Bc)) Pl S1). fold l c in E. specialize (E ltac:(lra)). destruct E as (V & F & B & A & _).
      destruct (max_pos _ V F (proj1 B)) as (V' & F' & E'). rewrite E', H1 by lra. repeat split; try assumption; try lra.
  - destruct (Rle_or_lt r (val x)) as [K'|K'].
    + apply Z; [|apply H3; now right|lra]. apply flank_neg; try assumption; try (split; [|split]; assumption). fold r. lra.
    + assert (E := flank (fx_ip1 b i) x (fx_ip1 b i) (fx_i b i) Pr (conj Vx (conj Fx Bx)) Pr (conj Vc (conj Fc Bc)) S2). fold r c in E. specialize (E ltac:(lra)). destruct E as (V & F & B & A & O & _).
      destruct (max_pos _ V F (proj1 B)) as (V' & F' & E'). rewrite E', H2 by lra. repeat split; try assumption; try lra.
Qed.
Lemma grid_le g : good_grid g -> forall j k, (j <= k < length g)%nat -> val (fat g j) <= val (fat g k).
Proof.
  intros [_ G] j k [H1 H2]. induction H1 as [|k H1 IH]; [lra|]. assert (K := spaced_lt _ _ (G k H2)). specialize (IH ltac:(lia)). lra.
Qed.
(** The value of [_evaluate] is the hat function or, outside the inner points, zero. *)
Lemma eval_cases b i x : good_grid (fb_grid b) -> (i < fb_len b)%nat -> point_ok x ->
  let g := fb_grid b in let v k := val (fat g k) in
  (fbasis_eval b x i = fhat_value b i x /\ ref_basis g (fb_zero b) i (val x) = hat (v i) (v (i + 1)%nat) (v (i + 2)%nat) (val x) /\ (fb_zero b = true \/ (v 1%nat <= val x <= v (length g - 2)%nat))) \/
  (fbasis_eval b x i = S754_zero false /\ ref_basis g (fb_zero b) i (val x) = 0 /\ fb_zero b = false /\ (val x < v 1%nat \/ v (length g - 2)%nat < val x)).
Proof.
  intros G Hi Hx g v. assert (O := hat_value_ok b i x G Hi Hx). cbv zeta in O. destruct O as (_ & _ & _ & _ & O & _). unfold fx_im1, fx_ip1 in O. fold g in O. change (val (fat g i)) with (v i) in O. change (val (fat g (i + 2))) with (v (i + 2)%nat) in O.
  assert (M := grid_le g G). unfold fb_len in Hi. fold g in Hi. destruct G as [G1 G2]. fold g in G1, G2.
  unfold fbasis_eval, ref_basis. fold g. destruct (fb_zero b); [left; repeat split; now left|].
  destruct (G1 1%nat ltac:(lia)) as (V1 & F1 & _). destruct (G1 (length g - 2)%nat ltac:(lia)) as (V2 & F2 & _). destruct Hx as (Vx & Fx & _). rewrite !ltb_val by assumption.
  change (val (fat g 1)) with (v 1%nat). change (val (fat g (length g - 2))) with (v (length g - 2)%nat).
  change (forall j k, (j <= k < length g)%nat -> v j <= v k) in M.
  destruct (Rlt_bool_spec (val x) (v 1%nat)) as [K|K]; cbn [orb andb].
  - right. split; [|split; [reflexivity|split; [reflexivity|now left]]].
    destruct (Nat.eqb_spec i 0) as [->|N]; [destruct (Rlt_bool (v (length g - 2)%nat) (val x) && _); reflexivity|].
    rewrite O; [destruct (Rlt_bool (v (length g - 2)%nat) (val x) && _); reflexivity|]. left. assert (J := M 1%nat i ltac:(lia)). lra.
  - destruct (Rlt_bool_spec (v (length g - 2)%nat) (val x)) as [K'|K']; cbn [orb andb]; [|left; split; [reflexivity|split; [reflexivity|right; lra]]].
    right. split; [|split; [reflexivity|split; [reflexivity|now right]]]. unfold fb_len. fold g. destruct (Nat.eqb_spec i (length g - 2 - 1)) as [E|N]; [reflexivity|].
    apply O. right. assert (J := M (i + 2)%nat (length g - 2)%nat ltac:(lia)). lra.
Qed.

(** ** Theorems *)
(** The construction accepts three points or more; there is one function per point, or per inner point for a zero boundary. *)
Theorem C80_init : forall grid z,
  ((length grid < 3)%nat -> fbasis_init grid z = Err ValueError) /\
  ((3 <= length grid)%nat -> exists b, fbasis_init grid z = Ok b /\ fb_zero b = z /\ fb_len b = (if z then length grid - 2 else length grid)%nat /\
     forall i, (i < fb_len b)%nat -> fx_i b i = nth (if z then i + 1 else i) grid S754_nan).
Proof.
  intros grid z. unfold fbasis_init. destruct (Nat.ltb_spec (length grid) 3) as [H|H]; split; intros K; try lia; [reflexivity|].
  destruct z; eexists; (split; [reflexivity|]); (split; [reflexivity|]); unfold fb_len, fx_i, fat; cbn [fb_grid]; (split; [rewrite ?app_length; cbn [length]; try rewrite app_length; cbn [length]; lia|]); intros i Hi; [reflexivity|].
  replace (i + 1)%nat with (S i) by lia. cbn [app nth]. apply app_nth1. cbn [app length] in Hi. rewrite app_length in Hi. cbn [length] in Hi. lia.
Qed.
Lemma pair_ok a w d : valid a -> fin a -> Rabs (val a) <= 2 ^ 1020 -> valid d -> fin d -> 0 <= w -> Rabs (val d - w) <= u * w -> Rabs (val d) <= 2 ^ 1021 ->
  (let y := fsub a d in valid y /\ fin y /\ Rabs (val y - (val a - w)) <= (Rabs (val a) + 3 * w) * u) /\
  (let y := fadd a d in valid y /\ fin y /\ Rabs (val y - (val a + w)) <= (Rabs (val a) + 3 * w) * u).
Proof.
  intros Va Fa Ba Vd Fd Hw Ed Bd. assert (U := u_lt). destruct u_eta as (_ & _ & U3).
  assert (T : Rabs (val a) + Rabs (val d) <= 2 ^ 1022).
  { rewrite <- (tech_pow_Rmult 2 1021). rewrite <- (tech_pow_Rmult 2 1020) in *. revert Ba Bd. generalize (2 ^ 1020) (Rabs (val a)) (Rabs (val d)) (pow_le 2 1020 ltac:(lra)). intros. assert (0 <= r) by lra. lra. }
  assert (W : Rabs (val d) <= (1 + u) * w). { replace (val d) with (w + (val d - w)) by ring. eapply Rle_trans; [apply Rabs_triang|]. rewrite (Rabs_pos_eq w) by exact Hw. lra. }
  assert (N : forall r, Rabs r <= Rabs (val a) + Rabs (val d) -> no_overflow r).
  { intros r Hr. unfold no_overflow. apply Rle_lt_trans with (2 ^ 1022); [|apply Rlt_pow; [lra|lia]]. assert (B : Rabs r <= 2 ^ 1022) by (eapply Rle_trans; eassumption).
    apply Rabs_le_inv in B. destruct B as [B1 B2]. apply rnd_mono in B1, B2. unfold rnd64 in B1 at 1. rewrite round_NE_opp in B1. fold (rnd64 (2 ^ 1022)) in B1. rewrite rnd_big in B1, B2. now apply Rabs_le. }
  clear Ba Bd T. assert (Pa := Rabs_pos (val a)). split; intros y.
  - assert (B : Rabs (val a - val d) <= Rabs (val a) + Rabs (val d)) by (unfold Rminus; eapply Rle_trans; [apply Rabs_triang|rewrite Rabs_Ropp; lra]).
    assert (F : fin y) by (apply (sub_ok a d Va Vd); auto). split; [now apply valid_sub|]. split; [exact F|]. unfold y in *. rewrite (proj2 (sub_ok a d Va Vd) F).
    assert (R := rnd_plus (val a) (- val d) (val_format a Va) (generic_format_opp _ _ _ (val_format d Vd))). rewrite Rplus_0_r in R. change (val a + - val d) with (val a - val d) in R.
    assert (u * Rabs (val a - val d) <= u * (Rabs (val a) + (1 + u) * w)) by (apply Rmult_le_compat_l; lra). assert (u * u * w <= u * w) by (rewrite Rmult_assoc; apply Rmult_le_compat_l; [lra|]; rewrite <- (Rmult_1_l w) at 2; apply Rmult_le_compat_r; lra).
    apply Rabs_le_inv in R, Ed. apply Rabs_le. nra.
  - assert (B : Rabs (val a + val d) <= Rabs (val a) + Rabs (val d)) by apply Rabs_triang.
    assert (F : fin y) by (apply (add_ok a d Va Vd); auto). split; [now apply valid_add|]. split; [exact F|]. unfold y in *. rewrite (proj2 (add_ok a d Va Vd) F).
    assert (R := rnd_plus (val a) (val d) (val_format a Va) (val_format d Vd)). rewrite Rplus_0_r in R.
    assert (u * Rabs (val a + val d) <= u * (Rabs (val a) + (1 + u) * w)) by (apply Rmult_le_compat_l; lra). assert (u * u * w <= u * w) by (rewrite Rmult_assoc; apply Rmult_le_compat_l; [lra|]; rewrite <- (Rmult_1_l w) at 2; apply Rmult_le_compat_r; lra).
    apply Rabs_le_inv in R, Ed. apply Rabs_le. nra.
Qed.
(** Without zero boundary the points given are kept, and the two new points are one spacing away from the end points up to rounding. *)
Theorem C80_sentinels : forall grid, (3 <= length grid)%nat -> good_grid grid ->
  let n := length grid in let v k := val (fat grid k) in
  exists first last, fbasis_init grid false = Ok (FBasis (first :: grid ++ [last]) false) /\ fin first /\ fin last /\
  Rabs (val first - (v 0%nat - (v 1%nat - v 0%nat))) <= (Rabs (v 0%nat) + 3 * (v 1%nat - v 0%nat)) * / 2 ^ 53 /\
  Rabs (val last - (v (n - 1)%nat + (v (n - 1)%nat - v (n - 2)%nat))) <= (Rabs (v (n - 1)%nat) + 3 * (v (n - 1)%nat - v (n - 2)%nat)) * / 2 ^ 53.
Proof.
  intros grid H G n v. assert (M := grid_le _ G). destruct G as [G _]. unfold fbasis_init. destruct (Nat.ltb_spec (length grid) 3) as [K|_]; [lia|].
  eexists. eexists. split; [reflexivity|]. change (/ 2 ^ 53) with u.
  destruct (G 0%nat ltac:(lia)) as (V0 & F0 & B0). destruct (G (n - 1)%nat ltac:(unfold n; lia)) as (V2 & F2 & B2).
  destruct (sub_point (fat grid 1) (fat grid 0) ltac:(apply G; lia) ltac:(apply G; lia)) as (Va & Fa & _ & Ea & _ & Ba).
  destruct (sub_point (fat grid (n - 1)) (fat grid (n - 2)) ltac:(apply G; unfold n; lia) ltac:(apply G; unfold n; lia)) as (Vb & Fb & _ & Eb & _ & Bb).
  assert (M1 := M 0%nat 1%nat ltac:(lia)). assert (M2 := M (n - 2)%nat (n - 1)%nat ltac:(unfold n; lia)).
  rewrite (Rabs_pos_eq (val (fat grid 1) - val (fat grid 0))) in Ea by lra. rewrite (Rabs_pos_eq (val (fat grid (n - 1)) - val (fat grid (n - 2)))) in Eb by lra.
  destruct (pair_ok _ (val (fat grid 1) - val (fat grid 0)) _ V0 F0 B0 Va Fa ltac:(lra) Ea Ba) as [(_ & P1 & P2) _].
  destruct (pair_ok _ (val (fat grid (n - 1)) - val (fat grid (n - 2))) _ V2 F2 B2 Vb Fb ltac:(lra) Eb Bb) as [_ (_ & Q1 & Q2)].
  split; [exact P1|]. split; [exact Q1|]. split; [exact P2|exact Q2].
Qed.
(** The computed values are between 0 and 1. *)
Theorem C80_range : forall b i x, good_grid (fb_grid b) -> (i < fb_len b)%nat -> point_ok x ->
  valid (fbasis_eval b x i) /\ fin (fbasis_eval b x i) /\ 0 <= val (fbasis_eval b x i) <= 1.
Proof.
  intros b i x G Hi Hx. destruct (hat_value_ok b i x G Hi Hx) as (V & F & B & _). destruct (eval_cases b i x G Hi Hx) as [[-> _]|[-> _]]; [auto|].
  change (val (S754_zero false)) with 0. repeat split; lra.
Qed.
(** They are exactly zero at the neighbouring points and beyond. *)
Theorem C80_zero : forall b i x, good_grid (fb_grid b) -> (i < fb_len b)%nat -> point_ok x ->
  val x <= val (fx_im1 b i) \/ val (fx_ip1 b i) <= val x -> fbasis_eval b x i = S754_zero false.
Proof.
  intros b i x G Hi Hx K. destruct (hat_value_ok b i x G Hi Hx) as (_ & _ & _ & _ & O & _). destruct (eval_cases b i x G Hi Hx) as [[-> _]|[-> _]]; [|reflexivity]. now apply O.
Qed.
(** At the own point of a function the value is 1 up to one rounding. *)
Theorem C80_node : forall b i x, good_grid (fb_grid b) -> (i < fb_len b)%nat -> point_ok x -> val x = val (fx_i b i) ->
  1 - / 2 ^ 53 <= val (fbasis_eval b x i) <= 1.
Proof.
  intros b i x G Hi Hx E. change (/ 2 ^ 53) with u. destruct (hat_value_ok b i x G Hi Hx) as (_ & _ & B & _ & _ & O & _). destruct (eval_cases b i x G Hi Hx) as [[-> _]|(_ & _ & _ & K)]; [specialize (O E); lra|].
  exfalso. assert (M := grid_le _ G). unfold fx_i in E. unfold fb_len in Hi. assert (M1 := M 1%nat (i + 1)%nat ltac:(lia)). assert (M2 := M (i + 1)%nat (length (fb_grid b) - 2)%nat ltac:(lia)). rewrite E in K. destruct K; lra.
Qed.
(** The error is at most five units of rounding. *)
Theorem C80_accuracy : forall b i x, good_grid (fb_grid b) -> (i < fb_len b)%nat -> point_ok x ->
  Rabs (val (fbasis_eval b x i) - ref_basis (fb_grid b) (fb_zero b) i (val x)) <= 5 * / 2 ^ 53.
Proof.
  intros b i x G Hi Hx. change (/ 2 ^ 53) with u. assert (U := u_lt). destruct (hat_value_ok b i x G Hi Hx) as (_ & _ & _ & A & _). destruct (eval_cases b i x G Hi Hx) as [(-> & -> & _)|(-> & -> & _)]; [exact A|].
  change (val (S754_zero false)) with 0. rewrite Rminus_0_r, Rabs_R0. lra.
Qed.
(** Between the points of two consecutive functions, these two sum to 1 up to ten units of rounding and all others are exactly zero. *)
Theorem C80_partition : forall b i x, good_grid (fb_grid b) -> (S i < fb_len b)%nat -> point_ok x -> val (fx_i b i) <= val x <= val (fx_i b (S i)) ->
  Rabs (val (fbasis_eval b x i) + val (fbasis_eval b x (S i)) - 1) <= 10 * / 2 ^ 53 /\
  (forall j, (j < fb_len b)%nat -> j <> i -> j <> S i -> fbasis_eval b x j = S754_zero false).
Proof.
  intros b i x G Hi Hx K. assert (M := grid_le _ G). unfold fx_i in K. split.
  - change (/ 2 ^ 53) with u. destruct (hat_value_ok b i x G ltac:(lia) Hx) as (_ & _ & _ & A & _ & _ & L). destruct (hat_value_ok b (S i) x G Hi Hx) as (_ & _ & _ & A' & _ & _ & L').
    assert (NK : ~ (val x < val (fat (fb_grid b) 1) \/ val (fat (fb_grid b) (length (fb_grid b) - 2)) < val x)).
    { unfold fb_len in Hi. assert (M1 := M 1%nat (i + 1)%nat ltac:(lia)). assert (M2 := M (S i + 1)%nat (length (fb_grid b) - 2)%nat ltac:(lia)). lra. }
    destruct (eval_cases b i x G ltac:(lia) Hx) as [[-> _]|(_ & _ & _ & K')]; [|contradiction]. destruct (eval_cases b (S i) x G Hi Hx) as [[-> _]|(_ & _ & _ & K')]; [|contradiction].
    unfold fx_im1, fx_i, fx_ip1 in *. replace (S i + 2)%nat with (i + 3)%nat in * by lia. replace (S i + 1)%nat with (i + 2)%nat in * by lia. replace (S i) with (i + 1)%nat in * by lia.
    set (g := fb_grid b) in *. set (v0 := val (fat g i)) in *. set (v1 := val (fat g (i + 1))) in *. set (v2 := val (fat g (i + 2))) in *. set (v3 := val (fat g (i + 3))) in *.
    destruct (hat_real v0 v1 v2 (val x) (proj1 L) (proj2 L)) as (_ & E & _). destruct (hat_real v1 v2 v3 (val x) (proj1 L') (proj2 L')) as (E' & _). rewrite E in A by lra. rewrite E' in A' by lra.
    assert (S : (v2 - val x) / (v2 - v1) + (val x - v1) / (v2 - v1) = 1) by (field; lra). apply Rabs_le_inv in A, A'. apply Rabs_le. lra.
  - intros j Hj N1 N2. apply C80_zero; try assumption. unfold fx_im1, fx_ip1, fb_len in *. destruct (lt_dec j i) as [C|C].
    + right. assert (M1 := M (j + 2)%nat (i + 1)%nat ltac:(lia)). lra.
    + left. assert (M1 := M (S i + 1)%nat j ltac:(lia)). lra.
Qed.
(** [eval_elem] gives the same numbers, bit by bit. *)
Theorem C80_elem : forall b i x, good_grid (fb_grid b) -> (i < fb_len b)%nat -> point_ok x -> feval_elem b i x = fbasis_eval b x i.
Proof.
  intros b i x G Hi Hx. assert (C := eval_cases b i x G Hi Hx). cbv zeta in C. unfold feval_elem. unfold fb_len in Hi. destruct G as [G1 _].
  destruct (G1 1%nat ltac:(lia)) as (V1 & F1 & _). destruct (G1 (length (fb_grid b) - 2)%nat ltac:(lia)) as (V2 & F2 & _). destruct Hx as (Vx & Fx & _). rewrite !ltb_val by assumption.
  destruct C as [(-> & _ & [-> | K])|(-> & _ & -> & K)]; [reflexivity| |].
  - rewrite !Rlt_bool_false by lra. destruct (fb_zero b); reflexivity.
  - destruct (Rlt_bool_spec (val (fat (fb_grid b) (length (fb_grid b) - 2))) (val x)); [reflexivity|]. rewrite Rlt_bool_true by lra. reflexivity.
Qed.
(** [support_bounds] gives the part between the neighbouring points that is inside the points given; outside these bounds the values are exactly zero. *)
Theorem C80_support : forall b i x, good_grid (fb_grid b) -> (2 <= fb_len b)%nat \/ fb_zero b = true -> (i < fb_len b)%nat -> point_ok x ->
  let s := fsupport b i in let v k := val (fat (fb_grid b) k) in
  val (fst s) = (if fb_zero b then v i else Rmax (v i) (v 1%nat)) /\
  val (snd s) = (if fb_zero b then v (i + 2)%nat else Rmin (v (i + 2)%nat) (v (length (fb_grid b) - 2)%nat)) /\
  val (fst s) < val (snd s) /\ (val x < val (fst s) \/ val (snd s) < val x -> fbasis_eval b x i = S754_zero false).
Proof.
  intros b i x G N Hi Hx s v. destruct (hat_value_ok b i x G Hi Hx) as (_ & _ & _ & _ & _ & _ & L). assert (C := eval_cases b i x G Hi Hx). cbv zeta in C. assert (Z := C80_zero b i x G Hi Hx).
  assert (M := grid_le _ G). change (forall j k, (j <= k < length (fb_grid b))%nat -> v j <= v k) in M.
  unfold s, fsupport. destruct (fb_zero b) eqn:Ez; cbn [negb andb]. { cbn [fst snd]. split; [reflexivity|]. split; [reflexivity|]. split; [lra|]. intros K. apply Z. lra. }
  destruct N as [N|N]; [|discriminate N]. destruct (Nat.eqb_spec i 0) as [->|N0]; [|destruct (Nat.eqb_spec i (fb_len b - 1)) as [->|N1]]; cbn [fst snd]; unfold fb_len in *.
  - split; [symmetry; apply Rmax_right, M; lia|]. split; [symmetry; apply Rmin_left, M; lia|]. split; [lra|]. intros K.
    destruct K as [K|K]; [|apply Z; lra]. unfold fx_i in K. cbn [Nat.add] in K. destruct C as [(_ & _ & [C|C])|(-> & _)]; [discriminate C|lra|reflexivity].
  - split; [symmetry; apply Rmax_left, M; lia|]. unfold fx_i in *. replace (length (fb_grid b) - 2 - 1 + 1)%nat with (length (fb_grid b) - 2)%nat in * by lia. split; [symmetry; apply Rmin_right, M; lia|]. split; [lra|]. intros K.
    destruct K as [K|K]; [apply Z; lra|]. destruct C as [(_ & _ & [C|C])|(-> & _)]; [discriminate C|lra|reflexivity].
  - split; [symmetry; apply Rmax_left, M; lia|]. split; [symmetry; apply Rmin_left, M; lia|]. split; [lra|]. intros K. apply Z; lra.
Qed.
(** NaN gives NaN for every function, also at the boundary. *)
Theorem C80_nan : forall b i, fbasis_eval b S754_nan i = S754_nan.
Proof.
  intros b i. unfold fbasis_eval, fhat_value. assert (L : forall a, SFltb S754_nan a = false) by (intros [[]|[]| |[] m e]; reflexivity). assert (L' : forall a, SFltb a S754_nan = false) by (intros [[]|[]| |[] m e]; reflexivity).
  rewrite !L, !L'. cbn [andb]. assert (E : fmul (fsub (fx_ip1 b i) S754_nan) (fright_factor b i) = S754_nan).
  { assert (E : forall a, fsub a S754_nan = S754_nan) by (intros [[]|[]| |[] m e]; reflexivity). rewrite E. generalize (fright_factor b i). intros [[]|[]| |[] m e]; reflexivity. }
  rewrite E. destruct (fb_zero b); reflexivity.
Qed.

(** ** What fails *)
Definition whole (k : nat) : spec_float := of_nat k.
(** Exact interpolation fails: on the points 0, 49, 98 the function of the point 49 is not 1 there. *)
Theorem C80_node_refuted : exists b, fbasis_init [whole 0; whole 49; whole 98] true = Ok b /\ fbasis_eval b (whole 49) 0 = S754_finite false 9007199254740991 (-53).
Proof. eexists. split; [reflexivity|]. vm_compute. reflexivity. Qed.
(** Large points: at 2^53 - 2, 2^53 - 1 and 2^53 the sentinel point after the last one rounds to the last one,
    and the last function is NaN at its own point. *)
Theorem C80_sentinel_refuted : let p k := SFadd 53 1024 (S754_finite false 4503599627370496 1) (SFopp (whole k)) in
  exists b, fbasis_init [p 2%nat; p 1%nat; p 0%nat] false = Ok b /\ fat (fb_grid b) 4 = fat (fb_grid b) 3 /\
    val (p 1%nat) - val (p 2%nat) = 1 /\ val (p 0%nat) - val (p 1%nat) = 1 /\ fbasis_eval b (p 0%nat) 2 = S754_nan.
Proof.
  intros p. eexists. split; [reflexivity|]. assert (E0 : p 0%nat = S754_finite false 4503599627370496 1) by (vm_compute; reflexivity).
  assert (E1 : p 1%nat = S754_finite false 9007199254740991 0) by (vm_compute; reflexivity). assert (E2 : p 2%nat = S754_finite false 9007199254740990 0) by (vm_compute; reflexivity).
  split; [vm_compute; reflexivity|]. split; [rewrite E1, E2; unfold val, SF2R, F2R; cbn; lra|]. split; [rewrite E1, E0; unfold val, SF2R, F2R; cbn; lra|]. vm_compute; reflexivity.
Qed.

(** ** Examples *)
Lemma whole_ok k : (k <= 1000)%nat -> point_ok (whole k) /\ val (whole k) = INR k.
Proof.
  intros H. assert (H' : INR k <= 1000) by (replace 1000 with (INR 1000) by (rewrite INR_IZR_INZ; reflexivity); now apply le_INR). assert (P : 2 ^ 10 <= 2 ^ 53) by (apply Rle_pow; [lra|lia]).
  destruct (of_nat_ok k) as (V & F & E); [cbn in P |- *; lra|]. split; [|exact E]. split; [exact V|]. split; [exact F|]. unfold whole. rewrite E, Rabs_pos_eq by apply pos_INR. apply Rle_trans with (2 ^ 10); [cbn; lra|]. apply Rle_pow; [lra|lia].
Qed.
Lemma whole_grid n : (n <= 1000)%nat -> good_grid (map whole (seq 0 n)).
Proof.
  intros Hn. assert (N : forall i, (i < n)%nat -> fat (map whole (seq 0 n)) i = whole i).
  { intros i Hi. unfold fat. rewrite (nth_indep _ _ (whole 0)) by (rewrite map_length, seq_length; exact Hi). rewrite map_nth, seq_nth by exact Hi. reflexivity. }
  split; intros i Hi; rewrite map_length, seq_length in Hi; rewrite !N by lia; [apply whole_ok; lia|]. rewrite (proj2 (whole_ok (S i) ltac:(lia))), (proj2 (whole_ok i ltac:(lia))), S_INR.
  replace (INR i + 1 - INR i) with 1 by ring. apply Rle_trans with (/ 1); [|rewrite Rinv_1; apply Rle_refl]. apply Rinv_le_contravar; [lra|]. apply pow_R1_Rle. lra.
Qed.
(** The points 0, ..., 9 with zero boundary meet the hypotheses; so do the points 1, ..., 8 with their sentinels. *)
Example C80_ex : exists b b', fbasis_init (map whole (seq 0 10)) true = Ok b /\ good_grid (fb_grid b) /\
  fbasis_init (map whole (seq 1 8)) false = Ok b' /\ good_grid (fb_grid b') /\ fb_len b = 8%nat /\ fb_len b' = 8%nat /\
  point_ok (whole 3) /\ val (fx_i b 2) <= val (whole 3) <= val (fx_i b 3).
Proof.
  eexists. eexists. split; [reflexivity|]. split; [apply (whole_grid 10); lia|]. split; [reflexivity|]. cbn [fb_grid]. split.
  { replace (_ ++ _) with (map whole (seq 0 10)) by (vm_compute; reflexivity). apply whole_grid. lia. }
  split; [reflexivity|]. split; [reflexivity|]. split; [apply whole_ok; lia|]. change (val (whole 3) <= val (whole 3) <= val (whole 4)). rewrite (proj2 (whole_ok 3 ltac:(lia))), (proj2 (whole_ok 4 ltac:(lia))). cbn; lra.
Qed.
Print Assumptions C80_init.
Print Assumptions C80_range.
Print Assumptions C80_zero.
Print Assumptions C80_node.
Print Assumptions C80_accuracy.
Print Assumptions C80_partition.
Print Assumptions C80_nan.
Print Assumptions C80_node_refuted.
Print Assumptions C80_sentinel_refuted.
Print Assumptions C80_elem.
Print Assumptions C80_support.
Print Assumptions C80_sentinels.
