(** Propagation of rounding errors through a program. *)
From Coq Require Import Reals ZArith Bool Lia Lra List.
From Coq.Floats Require Import SpecFloat.
From Flocq Require Import Core BinarySingleNaN.
From Verif Require Import Base NdArray FunExprModel KernelModel AdModel AdSpec FloatModel FloatRoundSpec FloatRound.
Import ListNotations.
Open Scope R_scope.

(** A library whose constants are correctly rounded and whose [exp] has the relative error [ue], up to
    underflow, [sin] and [cos] the absolute error [ue]. *)
Definition accurate (lb : lib) (ue : R) : Prop :=
  0 <= ue /\
  (forall c, valid (l_cst lb c) /\ (fin (l_cst lb c) -> val (l_cst lb c) = rnd64 c)) /\
  (forall a, valid a -> valid (l_exp lb a) /\
     (fin a -> fin (l_exp lb a) -> Rabs (val (l_exp lb a) - exp (val a)) <= ue * exp (val a) + eta64)) /\
  (forall a, valid a -> valid (l_sin lb a) /\ (fin a -> Rabs (val (l_sin lb a) - sin (val a)) <= ue)) /\
  (forall a, valid a -> valid (l_cos lb a) /\ (fin a -> Rabs (val (l_cos lb a) - cos (val a)) <= ue)).
(** The exact points behind two points of floating-point numbers *)
Definition exactly (x y : farr) : points := ((fun i => val (x i)), (fun i => val (y i))).

Section Err.
Variables (lb : lib) (x y : farr) (ue : R).
Notation run := (run64 lb x y).
Notation e := (exactly x y).
Notation V := (pval e).
Notation E := (err u64 eta64 ue e).
Hypothesis Hx : forall i, valid (x i).
Hypothesis Hy : forall i, valid (y i).
Hypothesis Acc : accurate lb ue.
Let ue_pos := proj1 Acc.
Let Hc := proj1 (proj2 Acc).
Let He := proj1 (proj2 (proj2 Acc)).
Let Hs := proj1 (proj2 (proj2 (proj2 Acc))).
Let Hcos := proj2 (proj2 (proj2 (proj2 Acc))).
(** Every intermediate result is finite *)
Fixpoint all_fin (p : prog) : Prop :=
  fin (run p) /\
  match p with
  | PVar _ _ | PCst _ => True
  | PAdd p q | PSub p q | PMul p q | PDiv p q => all_fin p /\ all_fin q
  | PNeg p | PExp p | PSqrt p | PSin p | PCos p | PPow p _ => all_fin p
  | PWhere r p q => all_fin r /\ (if Rle_dec (V r) 1 then all_fin p else all_fin q)
  end.
Lemma all_fin_run p : all_fin p -> fin (run p).
Proof. destruct p; intros H; exact (proj1 H). Qed.
Lemma rounded_bound a b er : Rabs (a - b) <= er -> Rabs (rnd64 a - b) <= rounded u64 eta64 er b.
Proof.
  intros H. unfold rounded. assert (R := rnd_error a). assert (U := u_pos).
  replace (rnd64 a - b) with ((rnd64 a - a) + (a - b)) by ring. eapply Rle_trans; [apply Rabs_triang|].
  assert (Rabs a <= Rabs (a - b) + Rabs b) by (replace a with ((a - b) + b) at 1 by ring; apply Rabs_triang). nra.
Qed.
Lemma mul_bound a b ah bh ea eb : Rabs (ah - a) <= ea -> Rabs (bh - b) <= eb -> Rabs (ah * bh - a * b) <= mul_err a ea b eb.
Proof.
  intros Ha Hb. unfold mul_err. replace (ah * bh - a * b) with (a * (bh - b) + b * (ah - a) + (ah - a) * (bh - b)) by ring.
  eapply Rle_trans; [apply Rabs_triang|]. apply Rplus_le_compat.
  - eapply Rle_trans; [apply Rabs_triang|]. rewrite !Rabs_mult. apply Rplus_le_compat; apply Rmult_le_compat_l; auto; apply Rabs_pos.
  - rewrite Rabs_mult. apply Rmult_le_compat; auto; apply Rabs_pos.
Qed.
Lemma div_bound a b ah bh ea eb : Rabs (ah - a) <= ea -> Rabs (bh - b) <= eb -> eb < Rabs b ->
  bh <> 0 /\ Rabs (ah / bh - a / b) <= (ea * Rabs b + Rabs a * eb) / (Rabs b * (Rabs b - eb)).
Proof.
  intros Ha Hb L.
  assert (Lb : Rabs b - eb <= Rabs bh). { assert (Rabs b <= Rabs (b - bh) + Rabs bh) by (replace b with ((b - bh) + bh) at 1 by ring; apply Rabs_triang). rewrite Rabs_minus_sym in Hb. lra. }
  assert (Eb : 0 <= eb) by (eapply Rle_trans; [apply Rabs_pos|exact Hb]). assert (Ea : 0 <= ea) by (eapply Rle_trans; [apply Rabs_pos|exact Ha]).
  assert (Nh : bh <> 0). { intros ->. rewrite Rabs_R0 in Lb. lra. }
  assert (Nb : b <> 0). { intros ->. rewrite Rabs_R0 in L. lra. }
  split; [exact Nh|].
  replace (ah / bh - a / b) with (((ah - a) * b - a * (bh - b)) / (b * bh)) by (field; auto).
  unfold Rdiv. rewrite Rabs_mult, Rabs_inv, Rabs_mult. apply Rmult_le_compat; [apply Rabs_pos| | |].
  - left. apply Rinv_0_lt_compat. apply Rmult_lt_0_compat; [lra|]. lra.
  - unfold Rminus at 1. eapply Rle_trans; [apply Rabs_triang|]. rewrite Rabs_Ropp, !Rabs_mult. apply Rplus_le_compat; [apply Rmult_le_compat_r|apply Rmult_le_compat_l]; auto; apply Rabs_pos.
  - apply Rinv_le_contravar; [apply Rmult_lt_0_compat; lra|]. apply Rmult_le_compat_l; lra.
Qed.
Lemma sqrt_bound a ah ea : 0 <= ah -> Rabs (ah - a) <= ea -> Rabs (sqrt ah - sqrt a) <= sqrt ea.
Proof.
  intros Ph H. assert (Pe : 0 <= ea) by (eapply Rle_trans; [apply Rabs_pos|exact H]).
  assert (G : forall p q, 0 <= p -> 0 <= q -> Rabs (p - q) <= ea -> Rabs (sqrt p - sqrt q) <= sqrt ea).
  { intros p q Pp Pq Hpq. assert (Sp := sqrt_pos p). assert (Sq := sqrt_pos q).
    apply Rsqr_incr_0_var; [|apply sqrt_pos]. rewrite Rsqr_sqrt by exact Pe. rewrite <- Rsqr_abs.
    eapply Rle_trans; [|exact Hpq]. unfold Rsqr.
    replace (p - q) with ((sqrt p - sqrt q) * (sqrt p + sqrt q)) by (ring_simplify; rewrite <- !Rsqr_pow2, !Rsqr_sqrt; auto).
    rewrite Rabs_mult. rewrite (Rabs_pos_eq (sqrt p + sqrt q)) by lra.
    destruct (Rle_dec (sqrt q) (sqrt p)).
    - rewrite (Rabs_pos_eq (sqrt p - sqrt q)) by lra. nra.
    - rewrite (Rabs_left1 (sqrt p - sqrt q)) by lra. nra. }
  destruct (Rle_dec 0 a) as [Pa|Na]; [now apply G|].
  rewrite (sqrt_neg_0 a) by lra. rewrite Rminus_0_r, Rabs_pos_eq by apply sqrt_pos. apply sqrt_le_1_alt.
  rewrite Rabs_pos_eq in H by lra. lra.
Qed.
Lemma exp_bound a ah ea : Rabs (ah - a) <= ea -> Rabs (exp ah - exp a) <= exp a * (exp ea - 1).
Proof.
  intros H. assert (P := exp_pos a). assert (Pe : 0 <= ea) by (eapply Rle_trans; [apply Rabs_pos|exact H]).
  apply Rabs_le_inv in H. apply Rabs_le.
  assert (M : forall p q, p <= q -> exp p <= exp q) by (intros p q [L| ->]; [left; now apply exp_increasing|lra]).
  split.
  - assert (L := M (a - ea) ah ltac:(lra)). unfold Rminus in L. rewrite exp_plus in L.
    assert (exp ea * exp (- ea) = 1) by (rewrite <- exp_plus, Rplus_opp_r; apply exp_0).
    assert (1 <= exp ea) by (rewrite <- exp_0; now apply M). assert (0 < exp (- ea)) by apply exp_pos.
    assert (2 - exp ea <= exp (- ea)) by nra. nra.
  - assert (L := M ah (a + ea) ltac:(lra)). rewrite exp_plus in L. lra.
Qed.
Lemma sin_bound a b : Rabs (sin a - sin b) <= Rabs (a - b).
Proof.
  destruct (MVT_abs sin cos b a) as (c & E & _); [intros; apply derivable_pt_lim_sin|]. rewrite E.
  rewrite <- (Rmult_1_l (Rabs (a - b))) at 2. apply Rmult_le_compat_r; [apply Rabs_pos|]. apply Rabs_le. apply COS_bound.
Qed.
Lemma cos_bound a b : Rabs (cos a - cos b) <= Rabs (a - b).
Proof.
  destruct (MVT_abs cos (fun x => - sin x) b a) as (c & E & _); [intros; apply derivable_pt_lim_cos|]. rewrite E, Rabs_Ropp.
  rewrite <- (Rmult_1_l (Rabs (a - b))) at 2. apply Rmult_le_compat_r; [apply Rabs_pos|]. apply Rabs_le. apply SIN_bound.
Qed.
Lemma opp_val a : val (SFopp a) = - val a.
Proof. destruct a as [s|s| |s m f]; unfold val; cbn [SFopp SF2R]; try ring. unfold F2R. cbn [Fnum Fexp]. destruct s; cbn [negb cond_Zopp]; rewrite ?opp_IZR; [rewrite <- Ropp_mult_distr_l, Ropp_involutive; reflexivity|]. change (IZR (Z.neg m)) with (- IZR (Z.pos m)). ring. Qed.
Lemma sqrt_fin a : fin (SFsqrt 53 1024 a) -> fin a -> 0 <= val a.
Proof.
  destruct a as [s|s| |[] m f]; unfold val, fin; cbn [SFsqrt SF2R is_finite_SF]; intros H1 H2; try discriminate; try lra.
  apply F2R_ge_0. cbn. lia.
Qed.
Lemma fone_val : valid (fone 53 1024) /\ fin (fone 53 1024) /\ val (fone 53 1024) = 1.
Proof.
  split; [vm_compute; reflexivity|]. split; [vm_compute; reflexivity|].
  assert (E1 : fone 53 1024 = S754_finite false 4503599627370496 (-52)) by (vm_compute; reflexivity).
  rewrite E1. unfold val. cbn [SF2R cond_Zopp]. unfold F2R. cbn [Fnum Fexp]. change (bpow radix2 (-52)) with (/ IZR (Z.pow_pos 2 52)).
  change (Z.pow_pos 2 52) with 4503599627370496%Z. apply Rinv_r. intros H. apply eq_IZR in H. discriminate.
Qed.
Lemma leb_ok a : valid a -> fin a -> SFleb a (fone 53 1024) = Rle_bool (val a) 1.
Proof.
  intros Va Fa. destruct fone_val as [V1 [F1 E1]]. rewrite <- E1. generalize (fone 53 1024), V1, F1. intros o Vo Fo.
  destruct (of_valid a Va) as [b ->], (of_valid o Vo) as [c ->]. unfold fin, val in *. rewrite is_finite_SF_B2SF in Fa, Fo. rewrite !SF2R_B2SF.
  change (SFleb (B2SF b) (B2SF c)) with (Bleb b c). now apply Bleb_correct.
Qed.
Lemma prog_error p : in_scope u64 eta64 ue e p -> all_fin p -> valid (run p) /\ Rabs (val (run p) - V p) <= E p.
Proof.
  induction p; cbn [in_scope all_fin pval err]; unfold run64; cbn [frun]; fold run64; intros S [F A]; try tauto.
  - split; [destruct b; auto|]. unfold exactly; destruct b; cbn [fst snd]; rewrite Rminus_eq_0, Rabs_R0; lra.
  - destruct (Hc c) as [Vc C]. split; [exact Vc|]. rewrite (C F). apply rounded_bound. rewrite Rminus_eq_0, Rabs_R0; lra.
  - destruct (IHp1 (proj1 S) (proj1 A)) as [V1 B1], (IHp2 (proj2 S) (proj2 A)) as [V2 B2]. split; [now apply valid_add|].
    rewrite (proj2 (add_ok _ _ V1 V2) F). apply rounded_bound.
    replace (_ + _ - _) with ((val (run p1) - V p1) + (val (run p2) - V p2)) by (unfold run64; ring).
    eapply Rle_trans; [apply Rabs_triang|]. lra.
  - destruct (IHp1 (proj1 S) (proj1 A)) as [V1 B1], (IHp2 (proj2 S) (proj2 A)) as [V2 B2]. split; [now apply valid_sub|].
    rewrite (proj2 (sub_ok _ _ V1 V2) F). apply rounded_bound.
    replace (_ - _ - _) with ((val (run p1) - V p1) + - (val (run p2) - V p2)) by (unfold run64; ring).
    eapply Rle_trans; [apply Rabs_triang|]. rewrite Rabs_Ropp. lra.
  - destruct (IHp1 (proj1 S) (proj1 A)) as [V1 B1], (IHp2 (proj2 S) (proj2 A)) as [V2 B2]. split; [now apply valid_mul|].
    rewrite (proj2 (mul_ok _ _ V1 V2) F). apply rounded_bound. now apply mul_bound.
  - destruct S as [S1 [S2 S3]]. destruct (IHp1 S1 (proj1 A)) as [V1 B1], (IHp2 S2 (proj2 A)) as [V2 B2]. split; [now apply valid_div|].
    destruct (div_bound _ _ _ _ _ _ B1 B2 S3) as [N D].
    rewrite (proj2 (div_ok _ _ V1 V2 (all_fin_run _ (proj1 A)) N) F). now apply rounded_bound.
  - destruct (IHp S A) as [V1 B1]. split; [now apply valid_opp|]. rewrite opp_val.
    replace (- _ - - _) with (- (val (run p) - V p)) by (unfold run64; ring). now rewrite Rabs_Ropp.
  - destruct (IHp S A) as [V1 B1]. destruct (He _ V1) as [V2 B2]. split; [exact V2|].
    specialize (B2 (all_fin_run _ A) F). assert (B3 := exp_bound _ _ _ B1).
    set (a := exp (val (run p))) in *. set (b := exp (V p)) in *.
    replace (_ - b) with ((val (l_exp lb (run p)) - a) + (a - b)) by (unfold run64; ring).
    eapply Rle_trans; [apply Rabs_triang|].
    assert (a <= b + Rabs (a - b)) by (assert (Q := Rle_abs (a - b)); lra). nra.
  - destruct (IHp S A) as [V1 B1]. split; [now apply valid_sqrt|].
    assert (P := sqrt_fin _ F (all_fin_run _ A)).
    rewrite (proj2 (sqrt_ok _ V1 (all_fin_run _ A) P)). apply rounded_bound. now apply sqrt_bound.
  - destruct (IHp S A) as [V1 B1]. destruct (Hs _ V1) as [V2 B2]. split; [exact V2|]. specialize (B2 (all_fin_run _ A)).
    replace (_ - _) with ((val (l_sin lb (run p)) - sin (val (run p))) + (sin (val (run p)) - sin (V p))) by (unfold run64; ring).
    eapply Rle_trans; [apply Rabs_triang|]. assert (Q := sin_bound (val (run p)) (V p)). lra.
  - destruct (IHp S A) as [V1 B1]. destruct (Hcos _ V1) as [V2 B2]. split; [exact V2|]. specialize (B2 (all_fin_run _ A)).
    replace (_ - _) with ((val (l_cos lb (run p)) - cos (val (run p))) + (cos (val (run p)) - cos (V p))) by (unfold run64; ring).
    eapply Rle_trans; [apply Rabs_triang|]. assert (Q := cos_bound (val (run p)) (V p)). lra.
  - destruct S as [S ->]. destruct (IHp S A) as [V1 B1]. cbn [fpow fpow_pos] in *. split; [now apply valid_mul|].
    rewrite (proj2 (mul_ok _ _ V1 V1) F). replace (powerRZ (V p) 2) with (V p * V p) by (generalize (V p); intros w; change (powerRZ w 2) with (w * (w * 1)); ring).
    apply rounded_bound. now apply mul_bound.
  - destruct S as [S1 [S2 S3]], A as [A1 A2]. destruct (IHp1 S1 A1) as [V1 B1].
    unfold run64 in V1. fold run64 in V1. change (frun 53 1024 lb x y p1) with (run p1). change (frun 53 1024 lb x y p2) with (run p2). change (frun 53 1024 lb x y p3) with (run p3).
    rewrite (leb_ok _ V1 (all_fin_run _ A1)). apply Rabs_le_inv in B1.
    destruct (Rle_dec (V p1) 1) as [L|L].
    + rewrite Rle_bool_true; [auto|]. rewrite Rabs_left1 in S2 by lra. lra.
    + rewrite Rle_bool_false; [auto|]. rewrite Rabs_pos_eq in S2 by lra. lra.
Qed.
End Err.
