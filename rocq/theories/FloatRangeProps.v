(** C74: covariance functions at points that are far apart, in floating-point arithmetic. *)
From Coq Require Import List Reals Bool Arith ZArith Lia Lra QArith Qcanon.
From Coq.Floats Require Import SpecFloat.
From Flocq Require Import Core BinarySingleNaN.
From Verif Require Import Base NdArray PolyModel PolyClassModel FunExprModel DiffopModel LfoModel KernelModel WendlandModel AdModel AdCovModel FloatModel FloatProofs FloatProps FloatRangeSpec FloatRoundSpec FloatRound FloatErr FloatRoundProps.
Import ListNotations.
Open Scope R_scope.
#[local] Existing Instance FloatRound.Hprec.
#[local] Existing Instance FloatRound.Hmax.
Notation fadd := (SFadd 53 1024).
Notation fsub := (SFsub 53 1024).
Notation fmul := (SFmul 53 1024).
Notation fsqrt := (SFsqrt 53 1024).

Lemma ovf s : binary_overflow 53 1024 mode_NE s = S754_infinity s.
Proof. reflexivity. Qed.
Lemma sign_SF_B2SF (b : binary_float 53 1024) : sign_SF (B2SF b) = Bsign b.
Proof. now destruct b. Qed.
Lemma sub_class a b : valid a -> valid b -> fin a -> fin b -> fsub a b <> S754_nan.
Proof.
  intros Va Vb. destruct (of_valid a Va) as [x ->], (of_valid b Vb) as [y ->]. unfold fin. rewrite !is_finite_SF_B2SF, sub_b. intros Fx Fy.
  assert (C := Bminus_correct 53 1024 _ _ mode_NE x y Fx Fy). destruct (Rlt_bool _ _).
  - destruct C as (_ & C & _). destruct (Bminus mode_NE x y); cbn in *; discriminate.
  - destruct C as [C _]. rewrite C, ovf. discriminate.
Qed.
Lemma mul_class a b : valid a -> valid b -> fin a -> fin b -> fmul a b <> S754_nan /\ sign_SF (fmul a b) = xorb (sign_SF a) (sign_SF b).
Proof.
  intros Va Vb. destruct (of_valid a Va) as [x ->], (of_valid b Vb) as [y ->]. unfold fin. rewrite !is_finite_SF_B2SF, mul_b. intros Fx Fy.
  assert (C := Bmult_correct 53 1024 _ _ mode_NE x y). destruct (Rlt_bool _ _).
  - destruct C as (_ & C & S). rewrite Fx, Fy in C. rewrite !sign_SF_B2SF. split; [|apply S]; destruct (Bmult mode_NE x y); cbn in *; (discriminate || reflexivity).
  - rewrite C, ovf, !sign_SF_B2SF. split; [discriminate|reflexivity].
Qed.
Lemma mul_notnan a b : valid a -> valid b -> a <> S754_nan -> nonzero_f b -> fmul a b <> S754_nan.
Proof.
  intros Va Vb N Z. destruct a as [s|s| |s m e]; [| |congruence|].
  - destruct b; cbn in *; (contradiction || discriminate).
  - destruct b; cbn in *; (contradiction || discriminate).
  - apply mul_class; auto; [reflexivity|]. destruct b; (contradiction || reflexivity).
Qed.
Lemma sq_nonneg a : valid a -> a <> S754_nan -> nonneg (fmul a a).
Proof.
  intros V N. destruct a as [s|s| |s m e]; [exact I|cbn; now rewrite xorb_nilpotent|congruence|].
  destruct (mul_class _ _ V V eq_refl eq_refl) as [C S]. rewrite xorb_nilpotent in S.
  destruct (fmul _ _) as [t|t| |t m' e']; cbn in *; subst; (exact I || congruence).
Qed.
Lemma add_nonneg a b : valid a -> valid b -> nonneg a -> nonneg b -> nonneg (fadd a b).
Proof.
  intros Va Vb Na Nb. destruct a as [s|[]| |[] m e]; try contradiction; destruct b as [t|[]| |[] n f]; try contradiction; try exact I.
  - cbn. destruct (Bool.eqb s t); exact I.
  - set (a := S754_finite false m e) in *. set (b := S754_finite false n f) in *.
    assert (P : forall c k, 0 < SF2R radix2 (S754_finite false c k)) by (intros; apply F2R_gt_0; reflexivity).
    assert (Pa := P m e). assert (Pb := P n f). fold a in Pa. fold b in Pb. assert (Fa : fin a) by reflexivity. assert (Fb : fin b) by reflexivity.
    assert (Sa : sign_SF a = false) by reflexivity.
    destruct (of_valid a Va) as [x Ex], (of_valid b Vb) as [y Ey]. unfold fin in *. rewrite Ex in *. rewrite Ey in *.
    rewrite !is_finite_SF_B2SF in *. rewrite !SF2R_B2SF in *. rewrite sign_SF_B2SF in Sa. rewrite add_b.
    assert (C := Bplus_correct 53 1024 _ _ mode_NE x y Fa Fb). destruct (Rlt_bool _ _).
    + destruct C as (_ & C & S). rewrite Rcompare_Gt in S by lra. destruct (Bplus mode_NE x y) as [t|t| |t m' e']; cbn in *; subst; (exact I || discriminate).
    + destruct C as [C _]. rewrite C, ovf, Sa. exact I.
Qed.
Lemma sqrt_nonneg a : valid a -> nonneg a -> nonneg (fsqrt a).
Proof.
  intros V N. destruct a as [s|[]| |[] m e]; try contradiction; try exact I.
  destruct (of_valid _ V) as [x Ex]. assert (S : sign_SF (S754_finite false m e) = false) by reflexivity. rewrite Ex in *. rewrite sign_SF_B2SF in S.
  rewrite sqrt_b. destruct (Bsqrt_correct 53 1024 _ _ mode_NE x) as (_ & F & G).
  destruct x as [s|s| |s m' e']; try discriminate. injection Ex as <- <- <-. cbn [Bsign] in S.
  set (r := Bsqrt _ _) in *. destruct r as [t|t| |t m'' e'']; cbn in *; try discriminate; [exact I|].
  assert (G' := G eq_refl). destruct t; [congruence|exact I].
Qed.
(** A product of numbers that are not negative is NaN exactly if one is infinite and the other zero. *)
Lemma mul_nonneg a b : valid a -> valid b -> nonneg a -> nonneg b ->
  (fmul a b = S754_nan <-> inf_zero a b) /\ (~ inf_zero a b -> nonneg (fmul a b)).
Proof.
  intros Va Vb Na Nb. unfold inf_zero.
  destruct a as [s|[]| |[] m e]; try contradiction; destruct b as [t|[]| |[] n f]; try contradiction.
  all: try (split; [split; [discriminate|intros [[? [? ?]]|[? [? ?]]]; discriminate]|intros _; exact I]).
  - split; [split; [intros _; right; eauto|reflexivity]|intros H; elim H; right; eauto].
  - split; [split; [intros _; left; eauto|reflexivity]|intros H; elim H; left; eauto].
  - destruct (mul_class _ _ Va Vb eq_refl eq_refl) as [C S]. cbn [sign_SF xorb] in S.
    split; [split; [intros H; now rewrite H in C|intros [[? [? ?]]|[? [? ?]]]; discriminate]|intros _].
    destruct (fmul _ _) as [t|t| |t m' e']; cbn in *; subst; (exact I || congruence).
Qed.

Lemma pos_nonneg a : pos a -> nonneg a.
Proof. intros [H| ->]; [|exact I]. destruct a as [| | |[]]; (contradiction || exact I). Qed.
Lemma add_pos a b : valid a -> valid b -> nonneg a -> positive_f b -> pos (fadd a b).
Proof.
  intros Va Vb Na Pb.
  assert (N : nonneg (fadd a b)) by (apply add_nonneg; auto; now apply pos_nonneg; left).
  destruct a as [s|[]| |[] m e]; try contradiction; destruct b as [t|[]| |[] n f]; try contradiction; [now left|now right|].
  destruct (fadd _ _) as [s|[]| |[] m' e'] eqn:E; try contradiction; [exfalso|now right|now left].
  set (a := S754_finite false m e) in *. set (b := S754_finite false n f) in *.
  assert (P : forall c k, 0 < SF2R radix2 (S754_finite false c k)) by (intros; apply F2R_gt_0; reflexivity).
  assert (Pa := P m e). assert (Pb' := P n f). fold a in Pa. fold b in Pb'. assert (Fa : fin a) by reflexivity. assert (Fb : fin b) by reflexivity.
  clearbody a b. destruct (of_valid a Va) as [x ->], (of_valid b Vb) as [y ->]. unfold fin in *.
  rewrite !is_finite_SF_B2SF in *. rewrite !SF2R_B2SF in *. rewrite add_b in E.
  assert (C := Bplus_correct 53 1024 _ _ mode_NE x y Fa Fb). destruct (Rlt_bool _ _).
  - destruct C as (C & _). rewrite <- SF2R_B2SF, E in C. cbn [SF2R] in C.
    assert (L : B2R y <= round radix2 (SpecFloat.fexp 53 1024) (round_mode mode_NE) (B2R x + B2R y)).
    { apply round_ge_generic; [apply fexp_correct; reflexivity|apply valid_rnd_round_mode|apply generic_format_B2R|lra]. }
    lra.
  - destruct C as [C _]. rewrite C in E. discriminate.
Qed.
Lemma add_inf a b : nonneg a -> nonneg b -> a = S754_infinity false \/ b = S754_infinity false -> fadd a b = S754_infinity false.
Proof. intros Na Nb [->| ->]; [destruct b as [|[]| |[]]|destruct a as [|[]| |[]]]; (contradiction || reflexivity). Qed.

(** ** Distances *)
Lemma term_ok lb sh scale x y i : good_scale lb sh scale -> good_point sh x -> good_point sh y -> In i (all_indices sh) ->
  valid (term lb scale x y i) /\ nonneg (term lb scale x y i).
Proof.
  intros S X Y H. destruct (S i H) as [Vs Zs], (X i H) as [Vx Fx], (Y i H) as [Vy Fy]. unfold term.
  assert (V : valid (fmul (fsub (x i) (y i)) (l_cst lb (scale i)))) by (apply valid_mul; auto; now apply valid_sub).
  split; [now apply valid_mul|]. apply sq_nonneg; [exact V|]. apply mul_notnan; auto; [now apply valid_sub|now apply sub_class].
Qed.
Lemma sqdist_ok lb sh scale x y : l_cst lb 0 = S754_zero false -> good_scale lb sh scale -> good_point sh x -> good_point sh y ->
  let v := run64 lb x y (sqdist_prog sh scale) in
  valid v /\ nonneg v /\ (far lb sh scale x y -> v = S754_infinity false).
Proof.
  intros Z S X Y. unfold sqdist_prog, far.
  assert (T := fun i => term_ok lb sh scale x y i S X Y). induction (all_indices sh) as [|j l IH]; cbn [map psum fold_right].
  - unfold run64. cbn [frun]. rewrite Z. split; [reflexivity|]. split; [exact I|]. intros (i & [] & _).
  - destruct (T j (or_introl eq_refl)) as [Vj Nj]. destruct IH as (V & N & F); [intros; apply T; now right|].
    unfold run64 in *. cbn [frun]. fold (psum (map (fun i => PPow (PMul (PSub (PVar false i) (PVar true i)) (PCst (scale i))) 2) l)).
    set (v := frun 53 1024 lb x y (psum _)) in *. change (fpow 53 1024 _ 2) with (term lb scale x y j).
    split; [now apply valid_add|]. split; [now apply add_nonneg|]. intros (i & [->|Hi] & E); apply add_inf; auto. right. apply F. eauto.
Qed.
Lemma dist_ok lb sh scale x y : l_cst lb 0 = S754_zero false -> good_scale lb sh scale -> good_point sh x -> good_point sh y ->
  let v := run64 lb x y (dist_prog sh scale) in
  valid v /\ nonneg v /\ (far lb sh scale x y -> v = S754_infinity false).
Proof.
  intros Z S X Y. destruct (sqdist_ok lb sh scale x y Z S X Y) as (V & N & F). unfold run64, dist_prog in *. cbn [frun].
  split; [now apply valid_sqrt|]. split; [now apply sqrt_nonneg|]. intros H. rewrite (F H). reflexivity.
Qed.
Lemma opp_nonpos a : nonneg a -> nonpos (SFopp a).
Proof. destruct a as [|[]| |[]]; cbn; auto. Qed.
Lemma in_unit_nonneg a : in_unit a -> nonneg a.
Proof. intros [H _]. destruct a as [|[]| |[]]; (exact I || discriminate). Qed.
Lemma nonneg_notnan a : nonneg a -> a <> S754_nan.
Proof. intros H ->. exact H. Qed.

(** ** Polynomials with positive coefficients *)
Lemma pos_mul a r : valid a -> valid r -> pos a -> nonneg r -> ((exists s, r = S754_zero s) -> positive_f a) -> nonneg (fmul a r).
Proof.
  intros Va Vr Pa Nr H. apply mul_nonneg; auto; [now apply pos_nonneg|]. intros [[-> [s ->]]|[-> [s ->]]].
  - exact (H (ex_intro _ s eq_refl)).
  - destruct Pa as [[]|]; discriminate.
Qed.
Lemma horner_pos lb x y cs p : (forall c, In c cs -> valid (l_cst lb c) /\ positive_f (l_cst lb c)) -> cs <> [] ->
  let r := run64 lb x y p in valid r -> nonneg r ->
  let v := run64 lb x y (horner_prog cs p) in
  valid v /\ pos v /\ ((2 <= length cs)%nat -> r = S754_infinity false -> v = S754_infinity false).
Proof.
  intros C N r Vr Nr.
  assert (K : forall k, (k < length cs)%nat -> valid (l_cst lb (nth k cs 0)) /\ positive_f (l_cst lb (nth k cs 0))) by (intros; apply C, nth_In; auto).
  assert (L : (0 < length cs)%nat) by (destruct cs; [contradiction|cbn; lia]).
  assert (G : forall ks q, Forall (fun k => (k < length cs)%nat) ks ->
    valid (run64 lb x y q) -> pos (run64 lb x y q) -> ((exists s, r = S754_zero s) -> positive_f (run64 lb x y q)) ->
    let v := run64 lb x y (fold_left (fun res k => PAdd (PMul res p) (PCst (nth k cs 0))) ks q) in
    valid v /\ pos v /\ (ks <> [] \/ run64 lb x y q = S754_infinity false -> r = S754_infinity false -> v = S754_infinity false)).
  { induction ks as [|k ks IH]; intros q F Vq Pq Zq; cbn [fold_left].
    - split; [exact Vq|]. split; [exact Pq|]. intros [[]|H] _; auto.
    - assert (Hk := Forall_inv F). assert (Hks := Forall_inv_tail F). cbn beta in Hk. destruct (K k Hk) as [Vk Pk].
      set (q' := PAdd (PMul q p) (PCst (nth k cs 0))).
      assert (E : run64 lb x y q' = fadd (fmul (run64 lb x y q) r) (l_cst lb (nth k cs 0))) by reflexivity.
      assert (Vm : valid (fmul (run64 lb x y q) r)) by now apply valid_mul.
      assert (Nm : nonneg (fmul (run64 lb x y q) r)) by now apply pos_mul.
      assert (I' : r = S754_infinity false -> run64 lb x y q' = S754_infinity false).
      { intros Er. rewrite E. apply add_inf; auto; [now apply pos_nonneg; left|left]. rewrite Er.
        destruct Pq as [Pq| ->]; [|reflexivity]. destruct (run64 lb x y q) as [| | |[]]; (contradiction || reflexivity). }
      destruct (IH q' Hks) as (A & B & D).
      + rewrite E. now apply valid_add.
      + rewrite E. now apply add_pos.
      + intros [s Hs]. rewrite E, Hs. specialize (Zq (ex_intro _ s Hs)). destruct (run64 lb x y q) as [| | |[]]; try contradiction.
        cbn [SFmul]. destruct (l_cst lb (nth k cs 0)) as [| | |[]]; try contradiction. exact I.
      + split; [exact A|]. split; [exact B|]. intros _ Er. apply D; auto. }
  unfold horner_prog. destruct (K (length cs - 1)%nat) as [V1 P1]; [lia|].
  destruct (G (rev (seq 0 (length cs - 1))) (PCst (nth (length cs - 1) cs 0))) as (A & B & D); auto.
  - apply Forall_forall. intros k Hk. apply in_rev, in_seq in Hk. lia.
  - now left.
  - split; [exact A|]. split; [exact B|]. intros H2 Er. apply D; auto. left. intros E. apply (f_equal (@length _)) in E. rewrite rev_length, seq_length in E. cbn in E. lia.
Qed.
Lemma mul_one a : valid a -> fin a -> fmul (SFone 53 1024) a = a.
Proof.
  intros V F. assert (V1 : valid (SFone 53 1024)) by reflexivity. assert (S1 : sign_SF (SFone 53 1024) = false) by reflexivity.
  assert (F1 : fin (SFone 53 1024)) by reflexivity. assert (E1 : val (SFone 53 1024) = 1) by exact (proj2 (proj2 fone_val)). revert V1 S1 F1 E1. generalize (SFone 53 1024) as o. intros o V1 S1 F1 E1.
  destruct (of_valid a V) as [x ->], (of_valid o V1) as [y ->]. unfold fin, val in *. rewrite is_finite_SF_B2SF, ?SF2R_B2SF, sign_SF_B2SF in *.
  rewrite mul_b. f_equal. assert (C := Bmult_correct 53 1024 _ _ mode_NE y x). rewrite E1, Rmult_1_l in C.
  rewrite (round_generic _ _ _ (B2R x)) in C by apply generic_format_B2R. rewrite Rlt_bool_true in C by apply abs_B2R_lt_emax.
  destruct C as (C & G & S). rewrite F, F1 in G. apply B2R_Bsign_inj; auto. rewrite S; [|destruct (Bmult _ _ _); (reflexivity || discriminate)]. rewrite S1. now destruct (Bsign x).
Qed.

(** ** Covariance functions *)
Lemma ok_inj A (a b : A) : Ok a = Ok b -> a = b.
Proof. congruence. Qed.
(** Squared exponential: a number between 0 and 1 for all points of finite numbers, also if the
    distance overflows; then it is the library's [exp] of minus infinity. *)
Theorem C74_expquad : forall lb e (x y : farr),
  l_cst lb 0 = S754_zero false -> decaying lb -> good_scale lb (eq_shape e) (eq_scale e) ->
  good_point (eq_shape e) x -> good_point (eq_shape e) y ->
  in_unit (run64 lb x y (expquad_prog e)) /\
  (far lb (eq_shape e) (eq_scale e) x y -> run64 lb x y (expquad_prog e) = l_exp lb (S754_infinity true)).
Proof.
  intros lb e x y Z D S X Y. destruct (sqdist_ok lb _ _ x y Z S X Y) as (V & N & F). unfold expquad_prog, run64 in *. cbn [frun].
  split; [apply D; [now apply valid_opp|now apply opp_nonpos]|]. intros H. now rewrite (F H).
Qed.
(** Matern with smoothness 1/2: likewise. *)
Theorem C74_matern_half : forall lb m p (x y : farr),
  l_cst lb 0 = S754_zero false -> l_cst lb 1 = fone 53 1024 -> decaying lb -> good_scale lb (mt_shape m) (mt_scale m) ->
  good_point (mt_shape m) x -> good_point (mt_shape m) y ->
  mt_nu m = HalfInt 0 -> matern_prog m = Ok p ->
  in_unit (run64 lb x y p) /\ (far lb (mt_shape m) (mt_scale m) x y -> run64 lb x y p = l_exp lb (S754_infinity true)).
Proof.
  intros lb m p x y Z O D S X Y Hn Hp. unfold matern_prog in Hp. rewrite Hn in Hp.
  destruct (half_integer_head 0) as [l Hl]. assert (l = []) by (apply (f_equal (@length _)) in Hl; cbn in Hl; destruct l; [reflexivity|discriminate]). subst l.
  cbv iota zeta in Hp. rewrite Hl in Hp. apply ok_inj in Hp. subst p.
  destruct (dist_ok lb _ _ x y Z S X Y) as (V & N & F). unfold run64 in *. cbn [horner_prog length Nat.sub seq rev fold_left nth frun]. rewrite O.
  set (r := frun 53 1024 lb x y (dist_prog _ _)) in *. destruct (D (SFopp r)) as [Ve U]; [now apply valid_opp|now apply opp_nonpos|].
  assert (Fe : fin (l_exp lb (SFopp r))). { destruct U as [_ U]. assert (W := in_unit_nonneg _ (conj (proj1 (proj2 (D _ (valid_opp _ V) (opp_nonpos _ N)))) U)). destruct (l_exp lb (SFopp r)) as [|[]| |]; (reflexivity || contradiction || discriminate). }
  unfold fone. rewrite mul_one by auto. split; [exact U|]. intros H. now rewrite (F H).
Qed.
(** Matern with any smoothness: not negative, and NaN exactly if the polynomial has overflowed and
    the exponential function has underflowed. *)
Theorem C74_matern : forall lb m n p (x y : farr),
  l_cst lb 0 = S754_zero false -> decaying lb -> good_scale lb (mt_shape m) (mt_scale m) ->
  good_point (mt_shape m) x -> good_point (mt_shape m) y ->
  mt_nu m = HalfInt n -> matern_prog m = Ok p ->
  (forall c, In c (float_coeffs (make_rational (half_integer_coefficients n))) -> valid (l_cst lb c) /\ positive_f (l_cst lb c)) ->
  let r := run64 lb x y (dist_prog (mt_shape m) (mt_scale m)) in
  let v := run64 lb x y (horner_prog (float_coeffs (make_rational (half_integer_coefficients n))) (dist_prog (mt_shape m) (mt_scale m))) in
  nonneg r /\ pos v /\ in_unit (l_exp lb (SFopp r)) /\
  (run64 lb x y p = S754_nan <-> v = S754_infinity false /\ exists s, l_exp lb (SFopp r) = S754_zero s) /\
  (run64 lb x y p <> S754_nan -> nonneg (run64 lb x y p)).
Proof.
  intros lb m n p x y Z D S X Y Hn Hp C r v. unfold matern_prog in Hp. rewrite Hn in Hp. cbv iota zeta in Hp. apply ok_inj in Hp. subst p.
  destruct (dist_ok lb _ _ x y Z S X Y) as (V & N & _). fold r in V, N.
  destruct (horner_pos lb x y _ (dist_prog (mt_shape m) (mt_scale m)) C) as (Vv & Pv & _); auto.
  { destruct (half_integer_head n) as [l ->]. discriminate. }
  fold v in Vv, Pv. destruct (D (SFopp r)) as [Ve U]; [now apply valid_opp|now apply opp_nonpos|].
  assert (Ne := in_unit_nonneg _ U). destruct (mul_nonneg v (l_exp lb (SFopp r)) Vv Ve (pos_nonneg _ Pv) Ne) as [M1 M2].
  assert (J : inf_zero v (l_exp lb (SFopp r)) <-> v = S754_infinity false /\ exists s, l_exp lb (SFopp r) = S754_zero s).
  { split; [|left; auto]. intros [H|[H [s Hs]]]; [exact H|]. rewrite Hs in Pv. destruct Pv as [[]|]; discriminate. }
  assert (E : run64 lb x y (PMul (horner_prog (float_coeffs (make_rational (half_integer_coefficients n))) (dist_prog (mt_shape m) (mt_scale m)))
    (PExp (PNeg (dist_prog (mt_shape m) (mt_scale m))))) = fmul v (l_exp lb (SFopp r))) by reflexivity.
  rewrite E. split; [exact N|]. split; [exact Pv|]. split; [exact U|]. split; [now rewrite M1|]. intros H. apply M2. now rewrite <- M1.
Qed.
(** The covariance of points that are far apart is not 0 but NaN, for all smoothnesses from 3/2 on
    (_matern.py:30-43); the squared exponential covariance function and smoothness 1/2 give 0. *)
Theorem C74_matern_far_refuted : forall lb m n p (x y : farr),
  l_cst lb 0 = S754_zero false -> good_scale lb (mt_shape m) (mt_scale m) ->
  good_point (mt_shape m) x -> good_point (mt_shape m) y ->
  mt_nu m = HalfInt (S n) -> matern_prog m = Ok p ->
  (forall c, In c (float_coeffs (make_rational (half_integer_coefficients (S n)))) -> valid (l_cst lb c) /\ positive_f (l_cst lb c)) ->
  l_exp lb (S754_infinity true) = S754_zero false ->
  far lb (mt_shape m) (mt_scale m) x y -> run64 lb x y p = S754_nan.
Proof.
  intros lb m n p x y Z S X Y Hn Hp C E F. unfold matern_prog in Hp. rewrite Hn in Hp. cbv iota zeta in Hp. apply ok_inj in Hp. subst p.
  destruct (dist_ok lb _ _ x y Z S X Y) as (V & N & G). specialize (G F).
  destruct (horner_pos lb x y _ (dist_prog (mt_shape m) (mt_scale m)) C) as (_ & _ & H); auto.
  { destruct (half_integer_head (Datatypes.S n)) as [l ->]. discriminate. }
  unfold run64 in *. cbn [frun]. rewrite H, G; auto; [cbn [SFopp negb]; now rewrite E|].
  destruct n; cbn; lia.
Qed.
Lemma ltb_leb a b : SFltb a b = true -> SFleb b a = false.
Proof.
  unfold SFltb, SFleb. destruct a as [[]|[]| |[] m e], b as [[]|[]| |[] n f]; cbn [SFcompare]; try reflexivity; try discriminate.
  all: rewrite (Z.compare_antisym e f); destruct (e ?= f)%Z; cbn [CompOpp]; try reflexivity; try discriminate.
  all: change (Pos.compare_cont Eq m n) with (m ?= n)%positive; change (Pos.compare_cont Eq n m) with (n ?= m)%positive.
  all: rewrite (Pos.compare_antisym m n); destruct (m ?= n)%positive; cbn; (reflexivity || discriminate).
Qed.
(** Wendland: beyond the support the constant 0, also if the distance overflows. *)
Theorem C74_wendland : forall lb w (x y : farr),
  l_cst lb 0 = S754_zero false -> good_scale lb (wl_shape w) (wl_scale w) -> good_point (wl_shape w) x -> good_point (wl_shape w) y ->
  let r := run64 lb x y (dist_prog (wl_shape w) (wl_scale w)) in
  nonneg r /\
  (SFltb (fone 53 1024) r = true -> run64 lb x y (wendland_prog w) = S754_zero false) /\
  (SFleb r (fone 53 1024) = true -> run64 lb x y (wendland_prog w) = run64 lb x y (horner_prog (float_coeffs (wl_poly w)) (dist_prog (wl_shape w) (wl_scale w)))) /\
  (far lb (wl_shape w) (wl_scale w) x y -> run64 lb x y (wendland_prog w) = S754_zero false).
Proof.
  intros lb w x y Z S X Y r. destruct (dist_ok lb _ _ x y Z S X Y) as (V & N & F). fold r in V, N, F. split; [exact N|].
  assert (E : run64 lb x y (wendland_prog w) = if SFleb r (fone 53 1024) then run64 lb x y (horner_prog (float_coeffs (wl_poly w)) (dist_prog (wl_shape w) (wl_scale w))) else l_cst lb 0) by reflexivity.
  rewrite E, Z. split; [|split].
  - intros H. replace (SFleb r (fone 53 1024)) with false; [reflexivity|]. symmetry. now apply ltb_leb.
  - intros ->. reflexivity.
  - intros H. rewrite (F H). reflexivity.
Qed.

(** ** The hypotheses can be met *)
(** Correctly rounded constants and a correctly rounded [exp], with its limits at infinity *)
Definition ieee_lib : lib :=
  mklib (fun a => match a with S754_nan => S754_nan | S754_infinity true => S754_zero false | S754_infinity false => S754_infinity false | _ => to_float (exp (val a)) end)
        (l_sin exact_lib) (l_cos exact_lib) to_float.
Lemma to_float_0 : to_float 0 = S754_zero false.
Proof. unfold to_float. replace (scaled_mantissa _ _ 0) with 0 by (unfold scaled_mantissa; ring). rewrite (Zrnd_IZR ZnearestE 0). reflexivity. Qed.
Lemma to_float_unit r : 0 <= r <= 1 -> valid (to_float r) /\ in_unit (to_float r).
Proof.
  intros H. destruct (to_float_ok r) as (V & E & F). split; [exact V|]. destruct fone_val as (V1 & F1 & E1).
  assert (Fr : fin (to_float r)) by (apply F, (small_ok _ 1); [apply Rabs_le; lra|apply pow_R1_Rle; lra]).
  assert (G : forall k, (k = 0%Z \/ k = 1%Z) -> generic_format radix2 (FLT_exp (-1074) 53) (IZR k)).
  { intros k [-> | ->]; [apply generic_format_0|]. change 1 with (bpow radix2 0). apply generic_format_bpow. cbn. lia. }
  assert (Vf : Valid_exp (FLT_exp (-1074) 53)) by (apply FLT_exp_valid; reflexivity).
  assert (P : 0 <= val (to_float r)) by (rewrite (E Fr); apply round_ge_generic; try exact Vf; try apply valid_rnd_N; [exact (G 0%Z (or_introl eq_refl))|lra]).
  split.
  - destruct (to_float r) as [s|s| |[] m e]; try reflexivity; try discriminate. exfalso.
    assert (val (S754_finite true m e) < 0) by (apply F2R_lt_0; reflexivity). lra.
  - change (SFone 53 1024) with (fone 53 1024). rewrite (leb_ok _ V Fr). apply Rle_bool_true. rewrite (E Fr).
    apply round_le_generic; try exact Vf; try apply valid_rnd_N; [exact (G 1%Z (or_intror eq_refl))|lra].
Qed.
Example ieee_lib_decaying : decaying ieee_lib.
Proof.
  intros a V N. destruct a as [s|[]| |[] m e]; try contradiction; cbn [ieee_lib l_exp].
  - apply to_float_unit. change (val _) with 0. rewrite exp_0. lra.
  - split; [reflexivity|]. split; reflexivity.
  - apply to_float_unit. split; [left; apply exp_pos|]. rewrite <- exp_0. left. apply exp_increasing. apply F2R_lt_0; reflexivity.
Qed.
(** Constants between 1 and 1024 are rounded to such constants. *)
Lemma to_float_pos r : 1 <= r <= 1024 -> valid (to_float r) /\ positive_f (to_float r) /\ fin (to_float r) /\ 1 <= val (to_float r).
Proof.
  intros H. destruct (to_float_ok r) as (V & E & F). split; [exact V|].
  assert (Fr : fin (to_float r)). { apply F, (small_ok _ 1024); [apply Rabs_le; lra|]. replace 1024 with (2 ^ 10) by ring. apply Rle_pow; [lra|lia]. }
  assert (Vf : Valid_exp (FLT_exp (-1074) 53)) by (apply FLT_exp_valid; reflexivity).
  assert (P : 1 <= val (to_float r)).
  { rewrite (E Fr). apply round_ge_generic; try exact Vf; try apply valid_rnd_N; [|lra]. change 1 with (bpow radix2 0). apply generic_format_bpow. cbn. lia. }
  split; [|auto]. destruct (to_float r) as [s|s| |[] m e]; try discriminate; try exact I; cbn in P; [lra|].
  assert (val (S754_finite true m e) < 0) by (apply F2R_lt_0; reflexivity). unfold val in *. cbn in *. lra.
Qed.
(** Numbers of 2^600 or more: the square overflows. *)
Lemma big_square a : valid a -> (fin a -> 2 ^ 600 <= Rabs (val a)) -> a <> S754_nan -> fmul a a = S754_infinity false.
Proof.
  intros V B N. assert (S := sq_nonneg a V N). destruct (mul_ok a a V V) as [C _].
  assert (K : ~ fin (fmul a a)).
  { intros F. apply C in F. destruct F as (Fa & _ & O). specialize (B Fa). unfold no_overflow in O.
    assert (Q : 2 ^ 1024 <= val a * val a).
    { apply Rle_trans with (2 ^ 600 * 2 ^ 600); [rewrite <- pow_add; apply Rle_pow; [lra|lia]|].
      assert (0 < 2 ^ 600) by (apply pow_lt; lra). rewrite <- (Rabs_pos_eq (val a * val a)) by (apply Rle_0_sqr). rewrite Rabs_mult. apply Rmult_le_compat; lra. }
    assert (Vf : Valid_exp (FLT_exp (-1074) 53)) by (apply FLT_exp_valid; reflexivity).
    assert (2 ^ 1024 <= rnd64 (val a * val a)).
    { apply round_ge_generic; try exact Vf; try apply valid_rnd_N; [ |exact Q]. rewrite <- bpow_emax. apply generic_format_bpow. cbn. lia. }
    assert (P := Rle_abs (rnd64 (val a * val a))). lra. }
  destruct (fmul a a) as [|[]| |[]]; try contradiction; try reflexivity; elim K; reflexivity.
Qed.
(** The points 2^600 and 0, a lengthscale of 1: far apart for both covariance functions *)
Definition huge : farr := fun _ => S754_finite false 4503599627370496 548.
Lemma huge_far s : 1 <= s <= 1024 -> far ieee_lib [] (fun _ => s) huge pt0 /\ good_scale ieee_lib [] (fun _ => s).
Proof.
  intros H. destruct (to_float_pos s H) as (V & P & F & L). split.
  - exists []. split; [now left|]. unfold term. change (l_cst ieee_lib s) with (to_float s).
    assert (Vd : valid (S754_finite false 4503599627370496 548)) by reflexivity.
    change (fsub (huge []) (pt0 [])) with (S754_finite false 4503599627370496 548).
    assert (E : val (S754_finite false 4503599627370496 548) = 2 ^ 600).
    { unfold val, SF2R, F2R. cbn [Fnum Fexp cond_Zopp]. change (IZR 4503599627370496) with (bpow radix2 52). rewrite <- bpow_plus.
      change (52 + 548)%Z with (Z.of_nat 600). rewrite bpow_powerRZ, <- pow_powerRZ. reflexivity. }
    assert (Vm := valid_mul _ _ Vd V). apply big_square; [exact Vm| |].
    + intros Fm. destruct (mul_ok _ _ Vd V) as [_ C]. rewrite (C Fm), E. eapply Rle_trans; [|apply Rle_abs].
      assert (Vf : Valid_exp (FLT_exp (-1074) 53)) by (apply FLT_exp_valid; reflexivity).
      assert (0 < 2 ^ 600) by (apply pow_lt; lra).
      apply round_ge_generic; try exact Vf; try apply valid_rnd_N; [|nra].
      replace (2 ^ 600) with (bpow radix2 600) by (change 600%Z with (Z.of_nat 600); rewrite bpow_powerRZ, <- pow_powerRZ; reflexivity). apply generic_format_bpow. cbn. lia.
    + apply mul_class; auto.
  - intros i _. split; [exact V|]. change (l_cst ieee_lib s) with (to_float s). destruct (to_float s) as [| | |[]]; try contradiction; exact I.
Qed.
Lemma pts_good : good_point [] huge /\ good_point [] pt0.
Proof. split; intros i _; split; reflexivity. Qed.
(** The squared exponential covariance is 0, the Matern covariance with smoothness 3/2 is NaN. *)
Example C74_ex_expquad : run64 ieee_lib huge pt0 (expquad_prog (ExpQuad [] (fun _ => / 2))) = S754_zero false.
Proof.
  destruct pts_good as [X Y]. assert (H : forall i, eq_scale (ExpQuad [] (fun _ => / 2)) i = 1 / (sqrt 2 * / 2)) by reflexivity.
  assert (Sq : sqrt 2 * sqrt 2 = 2) by (apply sqrt_sqrt; lra). assert (S1 : 1 <= sqrt 2) by (rewrite <- sqrt_1; apply sqrt_le_1_alt; lra).
  assert (E : 1 / (sqrt 2 * / 2) = sqrt 2) by (field_simplify; [|lra]; apply Rmult_eq_reg_r with (sqrt 2); [|lra]; rewrite Sq; field; lra).
  destruct (huge_far (sqrt 2)) as [F S]; [nra|]. rewrite <- E in F, S.
  destruct (C74_expquad ieee_lib (ExpQuad [] (fun _ => / 2)) huge pt0 to_float_0 ieee_lib_decaying S X Y) as [_ C]. exact (C F).
Qed.
Example C74_ex_matern : exists p, matern_prog ex_mat = Ok p /\ run64 ieee_lib huge pt0 p = S754_nan.
Proof.
  destruct pts_good as [X Y]. eexists. split; [reflexivity|].
  assert (S1 : 1 <= sqrt 3 <= 1024). { assert (Sq : sqrt 3 * sqrt 3 = 3) by (apply sqrt_sqrt; lra). split; [rewrite <- sqrt_1; apply sqrt_le_1_alt; lra|]. assert (P := sqrt_pos 3). nra. }
  assert (E : forall i, mt_scale ex_mat i = sqrt 3).
  { intros i. unfold mt_scale. cbn. field_simplify; try reflexivity; f_equal; lra. }
  destruct (huge_far (sqrt 3) S1) as [F S].
  eapply (C74_matern_far_refuted ieee_lib ex_mat 0 _ huge pt0 to_float_0); [|exact X|exact Y|reflexivity|reflexivity| |reflexivity|].
  - intros i Hi. rewrite E. exact (S i Hi).
  - intros c Hc. assert (C1 : c = 1). { cbn in Hc. unfold Qc2R in Hc. cbn in Hc. lra. } subst c. split; [|]; apply to_float_pos; lra.
  - destruct F as (i & Hi & Ht). exists i. split; [exact Hi|]. unfold term in *. rewrite E. exact Ht.
Qed.
Lemma to_float_1 : to_float 1 = fone 53 1024.
Proof.
  destruct (to_float_pos 1 ltac:(lra)) as (V & P & F & _). destruct fone_val as (V1 & F1 & E1).
  assert (E : val (to_float 1) = 1).
  { rewrite (proj1 (proj2 (to_float_ok 1)) F). apply round_generic; [apply valid_rnd_N|]. change 1 with (bpow radix2 0). apply generic_format_bpow. cbn. lia. }
  assert (P1 : positive_f (fone 53 1024)) by reflexivity || exact I. revert V P E V1 P1 E1. clear. generalize (to_float 1), (fone 53 1024). intros a b V P E V1 P1 E1.
  destruct (of_valid a V) as [x ->], (of_valid b V1) as [y ->]. f_equal. unfold val in *. rewrite SF2R_B2SF in *.
  apply B2R_inj; [destruct x; (contradiction || reflexivity)|destruct y; (contradiction || reflexivity)|congruence].
Qed.
(** Smoothness 1/2: 0 at the same points *)
Example C74_ex_matern_half : exists p, matern_prog (Matern [] (fun _ => 1) (HalfInt 0)) = Ok p /\ run64 ieee_lib huge pt0 p = S754_zero false.
Proof.
  destruct pts_good as [X Y]. eexists. split; [reflexivity|].
  assert (E : forall i, mt_scale (Matern [] (fun _ => 1) (HalfInt 0)) i = 1).
  { intros i. unfold mt_scale. cbn. replace (2 * _) with 1 by lra. rewrite sqrt_1. lra. }
  destruct (huge_far 1 ltac:(lra)) as [F S].
  refine (proj2 (C74_matern_half ieee_lib (Matern [] (fun _ => 1) (HalfInt 0)) _ huge pt0 to_float_0 to_float_1 ieee_lib_decaying _ X Y eq_refl eq_refl) _).
  - intros i Hi. rewrite E. exact (S i Hi).
  - destruct F as (i & Hi & Ht). exists i. split; [exact Hi|]. unfold term in *. rewrite E. exact Ht.
Qed.
Example C74_ex_wendland : forall q, run64 ieee_lib huge pt0 (wendland_prog (Wendland [] (fun _ => 1) q)) = S754_zero false.
Proof.
  intros q. destruct pts_good as [X Y]. set (w := Wendland [] (fun _ => 1) q).
  assert (E : forall i, wl_scale w i = 1) by (intros i; unfold wl_scale; cbn; lra).
  destruct (huge_far 1 ltac:(lra)) as [F S].
  refine (proj2 (proj2 (proj2 (C74_wendland ieee_lib w huge pt0 to_float_0 _ X Y))) _).
  - intros i Hi. rewrite E. exact (S i Hi).
  - destruct F as (i & Hi & Ht). exists i. split; [exact Hi|]. unfold term in *. rewrite E. exact Ht.
Qed.
Print Assumptions C74_expquad.
Print Assumptions C74_matern_half.
Print Assumptions C74_matern.
Print Assumptions C74_matern_far_refuted.
Print Assumptions C74_wendland.
