(** IEEE operations and rounding of real numbers, for binary64. *)
From Coq Require Import Reals ZArith Bool Lia Lra.
From Coq.Floats Require Import SpecFloat.
From Flocq Require Import Core Relative BinarySingleNaN.
From Verif Require Import FloatModel FloatProofs.
Open Scope R_scope.

Notation prec := 53%Z.
Notation emax := 1024%Z.
#[local] Instance Hprec : FLX.Prec_gt_0 prec := eq_refl _.
#[local] Instance Hmax : Prec_lt_emax prec emax := eq_refl _.
Definition rnd64 (x : R) : R := round radix2 (FLT_exp (-1074) 53) ZnearestE x.
Definition val (a : spec_float) : R := SF2R radix2 a.
Definition valid (a : spec_float) : Prop := valid_binary prec emax a = true.

Lemma round_nearest_even_equiv s m l : round_nearest_even m l = choice_mode mode_NE s m l.
Proof. case l; [reflexivity|intro c]. case c; [ | reflexivity..]. now simpl; unfold Round.cond_incr; case Z.even. Qed.
Lemma binary_round_aux_equiv sx mx ex lx :
  SpecFloat.binary_round_aux prec emax sx mx ex lx = binary_round_aux prec emax mode_NE sx mx ex lx.
Proof.
  unfold SpecFloat.binary_round_aux, binary_round_aux. set (mrse' := shr_fexp _ _ _ _ _).
  case mrse'; intros mrs' e'; simpl. now rewrite (round_nearest_even_equiv sx).
Qed.
Lemma binary_round_equiv s m e : SpecFloat.binary_round prec emax s m e = binary_round prec emax mode_NE s m e.
Proof.
  unfold SpecFloat.binary_round, binary_round, shl_align_fexp. set (mez := shl_align _ _ _); case mez as [mz ez]. apply binary_round_aux_equiv.
Qed.
Lemma binary_normalize_equiv m e szero :
  SpecFloat.binary_normalize prec emax m e szero = B2SF (binary_normalize prec emax Hprec Hmax mode_NE m e szero).
Proof. case m as [ | p | p]; [now simpl| |]; simpl; rewrite B2SF_SF2B; apply binary_round_equiv. Qed.
Notation bf := (binary_float prec emax).
Lemma mul_b (x y : bf) : SFmul prec emax (B2SF x) (B2SF y) = B2SF (Bmult mode_NE x y).
Proof.
  case x as [sx|sx| |sx mx ex Bx]; case y as [sy|sy| |sy my ey By]; [now trivial.. | ]. simpl. rewrite B2SF_SF2B. apply binary_round_aux_equiv.
Qed.
Lemma add_b (x y : bf) : SFadd prec emax (B2SF x) (B2SF y) = B2SF (Bplus mode_NE x y).
Proof.
  case x as [sx|sx| |sx mx ex Bx]; case y as [sy|sy| |sy my ey By]; [now (trivial || simpl; case Bool.eqb).. | ]. apply binary_normalize_equiv.
Qed.
Lemma sub_b (x y : bf) : SFsub prec emax (B2SF x) (B2SF y) = B2SF (Bminus mode_NE x y).
Proof.
  case x as [sx|sx| |sx mx ex Bx]; case y as [sy|sy| |sy my ey By]; [now (trivial || simpl; case Bool.eqb).. | ].
  simpl. unfold Zminus. rewrite <- cond_Zopp_negb. apply binary_normalize_equiv.
Qed.
Lemma div_b (x y : bf) : SFdiv prec emax (B2SF x) (B2SF y) = B2SF (Bdiv mode_NE x y).
Proof.
  case x as [sx|sx| |sx mx ex Bx]; case y as [sy|sy| |sy my ey By]; [now (trivial || simpl; case Bool.eqb).. | ].
  simpl. rewrite B2SF_SF2B. set (melz := SFdiv_core_binary _ _ _ _ _ _). case melz as [[mz ez] lz]. apply binary_round_aux_equiv.
Qed.
Lemma sqrt_b (x : bf) : SFsqrt prec emax (B2SF x) = B2SF (Bsqrt mode_NE x).
Proof.
  case x as [sx|sx| |sx mx ex Bx]; [now (trivial || case sx).. | ]. case sx; [reflexivity | ].
  simpl. rewrite B2SF_SF2B. set (melz := SFsqrt_core_binary _ _ _ _). case melz as [[mz ez] lz]. apply binary_round_aux_equiv.
Qed.

(** ** Operations on valid numbers *)
Definition fin (a : spec_float) : Prop := is_finite_SF a = true.
Lemma of_valid a : valid a -> exists b : bf, a = B2SF b.
Proof. intros H. exists (SF2B a H). now rewrite B2SF_SF2B. Qed.
Lemma valid_b (b : bf) : valid (B2SF b).
Proof. apply valid_binary_B2SF. Qed.
Lemma overflow_inf s a : a = binary_overflow prec emax mode_NE s -> ~ fin a.
Proof. intros ->. unfold fin. cbn. discriminate. Qed.
Lemma valid_add a b : valid a -> valid b -> valid (SFadd prec emax a b).
Proof. intros Ha Hb. destruct (of_valid a Ha) as [x ->], (of_valid b Hb) as [y ->]. rewrite add_b. apply valid_b. Qed.
Lemma valid_sub a b : valid a -> valid b -> valid (SFsub prec emax a b).
Proof. intros Ha Hb. destruct (of_valid a Ha) as [x ->], (of_valid b Hb) as [y ->]. rewrite sub_b. apply valid_b. Qed.
Lemma valid_mul a b : valid a -> valid b -> valid (SFmul prec emax a b).
Proof. intros Ha Hb. destruct (of_valid a Ha) as [x ->], (of_valid b Hb) as [y ->]. rewrite mul_b. apply valid_b. Qed.
Lemma valid_div a b : valid a -> valid b -> valid (SFdiv prec emax a b).
Proof. intros Ha Hb. destruct (of_valid a Ha) as [x ->], (of_valid b Hb) as [y ->]. rewrite div_b. apply valid_b. Qed.
Lemma valid_sqrt a : valid a -> valid (SFsqrt prec emax a).
Proof. intros Ha. destruct (of_valid a Ha) as [x ->]. rewrite sqrt_b. apply valid_b. Qed.
Lemma valid_opp a : valid a -> valid (SFopp a).
Proof. now destruct a. Qed.

Definition no_overflow (x : R) : Prop := Rabs (rnd64 x) < 2 ^ 1024.
Lemma bpow_emax : bpow radix2 emax = 2 ^ 1024.
Proof. change 1024%Z with (Z.of_nat 1024). rewrite bpow_powerRZ, <- pow_powerRZ. reflexivity. Qed.
Lemma add_finite_args a b : fin (SFadd prec emax a b) -> fin a /\ fin b.
Proof. destruct a as [s|s| |s m e], b as [t|t| |t n f]; unfold fin; simpl; try discriminate; auto. destruct (Bool.eqb s t); discriminate. Qed.
Lemma sub_finite_args a b : fin (SFsub prec emax a b) -> fin a /\ fin b.
Proof. destruct a as [s|s| |s m e], b as [t|t| |t n f]; unfold fin; simpl; try discriminate; auto. destruct (Bool.eqb s (negb t)); discriminate. Qed.
Lemma mul_finite_args a b : fin (SFmul prec emax a b) -> fin a /\ fin b.
Proof. destruct a as [s|s| |s m e], b as [t|t| |t n f]; unfold fin; simpl; try discriminate; auto. Qed.

Lemma add_ok a b : valid a -> valid b ->
  (fin (SFadd prec emax a b) <-> fin a /\ fin b /\ no_overflow (val a + val b)) /\
  (fin (SFadd prec emax a b) -> val (SFadd prec emax a b) = rnd64 (val a + val b)).
Proof.
  intros Ha Hb. destruct (of_valid a Ha) as [x ->], (of_valid b Hb) as [y ->].
  assert (G : fin (B2SF x) -> fin (B2SF y) ->
     (no_overflow (val (B2SF x) + val (B2SF y)) /\ fin (B2SF (Bplus mode_NE x y)) /\ val (B2SF (Bplus mode_NE x y)) = rnd64 (val (B2SF x) + val (B2SF y))) \/
     (~ no_overflow (val (B2SF x) + val (B2SF y)) /\ ~ fin (B2SF (Bplus mode_NE x y)))).
  { unfold fin, val. rewrite !is_finite_SF_B2SF, !SF2R_B2SF. intros Fx Fy. assert (C := Bplus_correct prec emax _ _ mode_NE x y Fx Fy).
    unfold no_overflow, rnd64. rewrite <- bpow_emax.
    change (round radix2 (SpecFloat.fexp prec emax) (round_mode mode_NE)) with (round radix2 (FLT_exp (-1074) 53) ZnearestE) in C.
    destruct (Rlt_bool_spec (Rabs (round radix2 (FLT_exp (-1074) 53) ZnearestE (B2R x + B2R y))) (bpow radix2 emax)) as [L|L].
    - left. destruct C as [C1 [C2 _]]. auto.
    - right. split; [lra|]. destruct C as [C1 _]. rewrite <- is_finite_SF_B2SF. now apply overflow_inf in C1. }
  rewrite add_b. split.
  - split.
    + intros F. rewrite <- add_b in F. destruct (add_finite_args _ _ F) as [Fa Fb]. rewrite add_b in F. destruct (G Fa Fb) as [[H _]|[_ H]]; tauto.
    + intros (Fa & Fb & O). destruct (G Fa Fb) as [[_ [H _]]|[H _]]; tauto.
  - intros F. assert (F' := F). rewrite <- add_b in F'. destruct (add_finite_args _ _ F') as [Fa Fb]. destruct (G Fa Fb) as [[_ [_ H]]|[_ H]]; tauto.
Qed.
Lemma sub_ok a b : valid a -> valid b ->
  (fin (SFsub prec emax a b) <-> fin a /\ fin b /\ no_overflow (val a - val b)) /\
  (fin (SFsub prec emax a b) -> val (SFsub prec emax a b) = rnd64 (val a - val b)).
Proof.
  intros Ha Hb. destruct (of_valid a Ha) as [x ->], (of_valid b Hb) as [y ->].
  assert (G : fin (B2SF x) -> fin (B2SF y) ->
     (no_overflow (val (B2SF x) - val (B2SF y)) /\ fin (B2SF (Bminus mode_NE x y)) /\ val (B2SF (Bminus mode_NE x y)) = rnd64 (val (B2SF x) - val (B2SF y))) \/
     (~ no_overflow (val (B2SF x) - val (B2SF y)) /\ ~ fin (B2SF (Bminus mode_NE x y)))).
  { unfold fin, val. rewrite !is_finite_SF_B2SF, !SF2R_B2SF. intros Fx Fy. assert (C := Bminus_correct prec emax _ _ mode_NE x y Fx Fy).
    unfold no_overflow, rnd64. rewrite <- bpow_emax.
    change (round radix2 (SpecFloat.fexp prec emax) (round_mode mode_NE)) with (round radix2 (FLT_exp (-1074) 53) ZnearestE) in C.
    destruct (Rlt_bool_spec (Rabs (round radix2 (FLT_exp (-1074) 53) ZnearestE (B2R x - B2R y))) (bpow radix2 emax)) as [L|L].
    - left. destruct C as [C1 [C2 _]]. auto.
    - right. split; [lra|]. destruct C as [C1 _]. rewrite <- is_finite_SF_B2SF. now apply overflow_inf in C1. }
  rewrite sub_b. split.
  - split.
    + intros F. rewrite <- sub_b in F. destruct (sub_finite_args _ _ F) as [Fa Fb]. rewrite sub_b in F. destruct (G Fa Fb) as [[H _]|[_ H]]; tauto.
    + intros (Fa & Fb & O). destruct (G Fa Fb) as [[_ [H _]]|[H _]]; tauto.
  - intros F. assert (F' := F). rewrite <- sub_b in F'. destruct (sub_finite_args _ _ F') as [Fa Fb]. destruct (G Fa Fb) as [[_ [_ H]]|[_ H]]; tauto.
Qed.
Lemma mul_ok a b : valid a -> valid b ->
  (fin (SFmul prec emax a b) <-> fin a /\ fin b /\ no_overflow (val a * val b)) /\
  (fin (SFmul prec emax a b) -> val (SFmul prec emax a b) = rnd64 (val a * val b)).
Proof.
  intros Ha Hb. destruct (of_valid a Ha) as [x ->], (of_valid b Hb) as [y ->].
  assert (G : fin (B2SF x) -> fin (B2SF y) ->
     (no_overflow (val (B2SF x) * val (B2SF y)) /\ fin (B2SF (Bmult mode_NE x y)) /\ val (B2SF (Bmult mode_NE x y)) = rnd64 (val (B2SF x) * val (B2SF y))) \/
     (~ no_overflow (val (B2SF x) * val (B2SF y)) /\ ~ fin (B2SF (Bmult mode_NE x y)))).
  { unfold fin, val. rewrite !is_finite_SF_B2SF, !SF2R_B2SF. intros Fx Fy. assert (C := Bmult_correct prec emax _ _ mode_NE x y).
    unfold no_overflow, rnd64. rewrite <- bpow_emax. rewrite Fx, Fy in C.
    change (round radix2 (SpecFloat.fexp prec emax) (round_mode mode_NE)) with (round radix2 (FLT_exp (-1074) 53) ZnearestE) in C.
    destruct (Rlt_bool_spec (Rabs (round radix2 (FLT_exp (-1074) 53) ZnearestE (B2R x * B2R y))) (bpow radix2 emax)) as [L|L].
    - left. destruct C as [C1 [C2 _]]. auto.
    - right. split; [lra|]. rewrite <- is_finite_SF_B2SF. now apply overflow_inf in C. }
  rewrite mul_b. split.
  - split.
    + intros F. rewrite <- mul_b in F. destruct (mul_finite_args _ _ F) as [Fa Fb]. rewrite mul_b in F. destruct (G Fa Fb) as [[H _]|[_ H]]; tauto.
    + intros (Fa & Fb & O). destruct (G Fa Fb) as [[_ [H _]]|[H _]]; tauto.
  - intros F. assert (F' := F). rewrite <- mul_b in F'. destruct (mul_finite_args _ _ F') as [Fa Fb]. destruct (G Fa Fb) as [[_ [_ H]]|[_ H]]; tauto.
Qed.
Lemma div_ok a b : valid a -> valid b -> fin a -> val b <> 0 ->
  (fin (SFdiv prec emax a b) <-> no_overflow (val a / val b)) /\
  (fin (SFdiv prec emax a b) -> val (SFdiv prec emax a b) = rnd64 (val a / val b)).
Proof.
  intros Ha Hb. destruct (of_valid a Ha) as [x ->], (of_valid b Hb) as [y ->]. rewrite div_b.
  unfold fin, val. rewrite !is_finite_SF_B2SF, !SF2R_B2SF. intros Fx Ny. assert (C := Bdiv_correct prec emax _ _ mode_NE x y Ny).
  unfold no_overflow, rnd64. rewrite <- bpow_emax. rewrite Fx in C.
  change (round radix2 (SpecFloat.fexp prec emax) (round_mode mode_NE)) with (round radix2 (FLT_exp (-1074) 53) ZnearestE) in C.
  destruct (Rlt_bool_spec (Rabs (round radix2 (FLT_exp (-1074) 53) ZnearestE (B2R x / B2R y))) (bpow radix2 emax)) as [L|L].
  - destruct C as [C1 [C2 _]]. tauto.
  - rewrite <- is_finite_SF_B2SF. apply overflow_inf in C. unfold fin in C. split; [split; [tauto|lra]|tauto].
Qed.
Lemma sqrt_ok a : valid a -> fin a -> 0 <= val a -> fin (SFsqrt prec emax a) /\ val (SFsqrt prec emax a) = rnd64 (sqrt (val a)).
Proof.
  intros Ha. destruct (of_valid a Ha) as [x ->]. rewrite sqrt_b. unfold fin, val. rewrite !is_finite_SF_B2SF, !SF2R_B2SF. intros Fx Px.
  destruct (Bsqrt_correct prec emax _ _ mode_NE x) as [C1 [C2 _]]. split; [|exact C1].
  rewrite C2. destruct x as [s|s| |[] m e B]; try reflexivity; try discriminate.
  exfalso. cbn [B2R] in Px. assert (F2R (Float radix2 (cond_Zopp true (Z.pos m)) e) < 0); [|lra]. now apply F2R_lt_0.
Qed.

(** ** Horner's method *)
From Coq Require Import List.
From Verif Require Import Base PolyModel PolyClassModel FunExprModel KernelModel AdModel FloatRoundSpec.
Import ListNotations.
Lemma u_val : / 2 * bpow radix2 (- (53) + 1) = u64.
Proof.
  unfold u64. change (- (53) + 1)%Z with (- (52))%Z. rewrite bpow_opp. change 52%Z with (Z.of_nat 52). rewrite bpow_powerRZ, <- pow_powerRZ.
  rewrite <- Rinv_mult. f_equal. 
Qed.
Lemma eta_val : / 2 * bpow radix2 (-1074) = eta64.
Proof.
  unfold eta64. change (-1074)%Z with (- (1074))%Z. rewrite bpow_opp. change 1074%Z with (Z.of_nat 1074). rewrite bpow_powerRZ, <- pow_powerRZ.
  rewrite <- Rinv_mult. f_equal.
Qed.
Lemma u_pos : 0 <= u64.
Proof. unfold u64. left. apply Rinv_0_lt_compat, pow_lt. lra. Qed.
Lemma eta_pos : 0 <= eta64.
Proof. unfold eta64. left. apply Rinv_0_lt_compat, pow_lt. lra. Qed.
Lemma rnd_error x : Rabs (rnd64 x - x) <= u64 * Rabs x + eta64.
Proof.
  destruct (error_N_FLT radix2 (-1074) 53 eq_refl (fun x => negb (Z.even x)) x) as (eps & eta & He & Ht & _ & E).
  unfold rnd64. rewrite E. rewrite u_val in He. rewrite eta_val in Ht.
  replace (x * (1 + eps) + eta - x) with (eps * x + eta) by ring. eapply Rle_trans; [apply Rabs_triang|].
  rewrite Rabs_mult. assert (H := Rabs_pos x). nra.
Qed.
Lemma geometric_pos n q : 0 <= q -> 0 <= geometric n q.
Proof. intros H. induction n as [|n IH]; cbn [geometric]; [lra|nra]. Qed.
Lemma poly_abs cs x : Rabs (poly_at cs x) <= poly_at (map Rabs cs) (Rabs x).
Proof.
  induction cs as [|c cs IH]; cbn [map poly_at]; [rewrite Rabs_R0; lra|].
  eapply Rle_trans; [apply Rabs_triang|]. rewrite Rabs_mult. assert (H := Rabs_pos x). nra.
Qed.
Lemma poly_abs_pos cs x : 0 <= poly_at (map Rabs cs) (Rabs x).
Proof. eapply Rle_trans; [apply Rabs_pos|apply poly_abs]. Qed.

(** One step of Horner's method *)
Lemma horner_step u e r rh x c t s a B g :
  0 <= u -> 0 <= e -> 0 <= B -> 0 <= g -> Rabs r <= a ->
  Rabs (rh - r) <= g * a + e * B ->
  Rabs (t - rh * x) <= u * Rabs (rh * x) + e ->
  Rabs (s - (t + c)) <= u * Rabs (t + c) + e ->
  Rabs (s - (c + x * r)) <= ((1 + g) * (1 + u) ^ 2 - 1) * (Rabs c + Rabs x * a) + e * ((2 + u) + (1 + u) ^ 2 * Rabs x * B).
Proof.
  intros Hu He HB Hg Ha H1 H2 H3.
  assert (Hx := Rabs_pos x). assert (Hc := Rabs_pos c). assert (Hr := Rabs_pos r).
  set (X := Rabs x) in *. set (E := Rabs (rh - r)) in *. assert (HE : 0 <= E) by apply Rabs_pos.
  assert (Rh : Rabs rh <= E + a). { replace rh with ((rh - r) + r) by ring. eapply Rle_trans; [apply Rabs_triang|]. fold E. lra. }
  assert (T : Rabs (t - r * x) <= u * ((E + a) * X) + e + E * X).
  { replace (t - r * x) with ((t - rh * x) + (rh - r) * x) by ring. eapply Rle_trans; [apply Rabs_triang|].
    rewrite (Rabs_mult (rh - r)). fold E X. rewrite Rabs_mult in H2. fold X in H2.
    assert (Rabs rh * X <= (E + a) * X) by (apply Rmult_le_compat_r; assumption). nra. }
  set (D := Rabs (t - r * x)) in *.
  assert (TC : Rabs (t + c) <= D + (Rabs c + X * a)).
  { replace (t + c) with ((t - r * x) + (c + x * r)) by ring. eapply Rle_trans; [apply Rabs_triang|]. fold D. apply Rplus_le_compat_l.
    eapply Rle_trans; [apply Rabs_triang|]. rewrite Rabs_mult. fold X. apply Rplus_le_compat_l. now apply Rmult_le_compat_l. }
  assert (S : Rabs (s - (c + x * r)) <= (1 + u) * D + u * (Rabs c + X * a) + e).
  { replace (s - (c + x * r)) with ((s - (t + c)) + (t - r * x)) by ring. eapply Rle_trans; [apply Rabs_triang|]. fold D. nra. }
  eapply Rle_trans; [exact S|].
  assert (D' : D <= ((1 + u) * (g * a + e * B) + u * a) * X + e).
  { eapply Rle_trans; [exact T|]. assert (EX : E * X <= (g * a + e * B) * X) by (apply Rmult_le_compat_r; assumption).
    apply (Rmult_le_compat_l (1 + u)) in EX; [|lra]. lra. }
  assert ((1 + u) * D <= (1 + u) * (((1 + u) * (g * a + e * B) + u * a) * X + e)) by (apply Rmult_le_compat_l; lra).
  assert (0 <= (1 + u) * u + (1 + u) * (1 + u) * g) by nra.
  assert (0 <= ((1 + u) * u + (1 + u) * (1 + u) * g) * Rabs c) by (apply Rmult_le_pos; assumption).
  nra.
Qed.

Fixpoint fhorner (vs : list spec_float) (x : spec_float) : spec_float :=
  match vs with
  | [] => S754_zero false
  | c :: vs' => match vs' with [] => c | _ => SFadd prec emax (SFmul prec emax (fhorner vs' x) x) c end
  end.
Lemma fold_right_rev_seq {A} (f : A -> nat -> A) l a : fold_left f (rev l) a = fold_right (fun k r => f r k) a l.
Proof. rewrite <- fold_left_rev_right, rev_involutive. reflexivity. Qed.
Lemma fold_right_map {A} (f : nat -> A -> A) l a : fold_right f a (map S l) = fold_right (fun k r => f (S k) r) a l.
Proof. induction l as [|k l IH]; simpl; [reflexivity|now rewrite IH]. Qed.
Lemma frun_horner lb x y cs p : cs <> [] -> frun prec emax lb x y (horner_prog cs p) = fhorner (map (l_cst lb) cs) (frun prec emax lb x y p).
Proof.
  unfold horner_prog. rewrite fold_right_rev_seq. induction cs as [|c cs IH]; [congruence|]. intros _. destruct cs as [|c' cs]; [reflexivity|].
  specialize (IH ltac:(discriminate)). cbn [length Nat.sub] in *. rewrite ?Nat.sub_0_r in *. cbn [seq fold_right]. rewrite <- seq_shift, fold_right_map.
  cbn [frun]. change (nth (S (length cs)) (c :: c' :: cs) 0) with (nth (length cs) (c' :: cs) 0).
  change (fun k r => PAdd (PMul r p) (PCst (nth (S k) (c :: c' :: cs) 0))) with (fun k r => PAdd (PMul r p) (PCst (nth k (c' :: cs) 0))).
  rewrite IH. reflexivity.
Qed.
Lemma fhorner_valid vs x : List.Forall valid vs -> valid x -> valid (fhorner vs x).
Proof.
  intros H Hx. induction H as [|c vs Hc H IH]; [reflexivity|]. cbn [fhorner]. destruct vs as [|c' vs]; [exact Hc|]. apply valid_add; [now apply valid_mul|exact Hc].
Qed.
Lemma pow_ge1 u n : 0 <= u -> 0 <= (1 + u) ^ n - 1.
Proof. intros H. assert (1 <= (1 + u) ^ n); [|lra]. apply pow_R1_Rle. lra. Qed.
Lemma fhorner_bound vs x : List.Forall valid vs -> valid x -> vs <> [] -> fin (fhorner vs x) ->
  Rabs (val (fhorner vs x) - poly_at (map val vs) (val x)) <= horner_bound (map val vs) (val x).
Proof.
  intros Hv Hx. induction Hv as [|c vs Hc Hv IH]; [congruence|]. intros _ F. destruct vs as [|c' vs].
  - unfold horner_bound. cbn [fhorner map poly_at length Nat.sub Nat.mul Nat.add pow geometric].
    replace (val c - (val c + val x * 0)) with 0 by ring. rewrite Rabs_R0. right. ring.
  - set (ws := c' :: vs) in *. change (fhorner (c :: ws) x) with (SFadd prec emax (SFmul prec emax (fhorner ws x) x) c) in *.
    assert (W : valid (fhorner ws x)) by now apply fhorner_valid.
    assert (V := valid_mul _ _ W Hx).
    destruct (add_ok _ _ V Hc) as [A1 A2]. specialize (A2 F). apply A1 in F. destruct F as (Fm & Fc & _).
    destruct (mul_ok _ _ W Hx) as [M1 M2]. specialize (M2 Fm). apply M1 in Fm. destruct Fm as (Fw & _ & _).
    specialize (IH ltac:(discriminate) Fw). unfold horner_bound in *.
    rewrite !map_length in *. replace (length (c :: ws) - 1)%nat with (S (length ws - 1))%nat by (subst ws; cbn [length]; lia).
    set (n := (length ws - 1)%nat) in *.
    assert (G := pow_ge1 u64 (2 * n) u_pos).
    assert (GP := geometric_pos n ((1 + u64) ^ 2 * Rabs (val x)) ltac:(apply Rmult_le_pos; [apply pow_le; assert (P := u_pos); lra|apply Rabs_pos])).
    assert (BP : 0 <= (2 + u64) * geometric n ((1 + u64) ^ 2 * Rabs (val x))) by (assert (P := u_pos); nra).
    assert (St := horner_step u64 eta64 _ _ (val x) (val c) _ _ _ _ _ u_pos eta_pos BP G (poly_abs (map val ws) (val x)) IH (rnd_error _) (rnd_error _)).
    rewrite <- M2 in St. rewrite <- A2 in St. cbn [map poly_at geometric]. fold ws.
    eapply Rle_trans; [exact St|]. right.
    replace (2 * S n)%nat with (2 * n + 2)%nat by lia. rewrite pow_add. ring.
Qed.
