(** Lemmas about programs in IEEE arithmetic. *)
From Coq Require Import List Reals Bool Arith ZArith Lia.
From Coq.Floats Require Import SpecFloat.
From Verif Require Import Base NdArray PolyModel PolyClassModel FunExprModel DiffopModel LfoModel KernelModel WendlandModel AdModel AdCovModel AdCovProofs FloatModel FloatSpec.
Import ListNotations.

Section Format.
Variables prec emax : Z.
Notation fadd := (SFadd prec emax).
Notation fsub := (SFsub prec emax).
Notation fmul := (SFmul prec emax).
Notation fdiv := (SFdiv prec emax).

Lemma opp_opp a : SFopp (SFopp a) = a.
Proof. destruct a; simpl; now rewrite ?negb_involutive. Qed.

(** ** Rounding ignores the sign *)
Lemma round_aux_opp s m e l : binary_round_aux prec emax (negb s) m e l = SFopp (binary_round_aux prec emax s m e l).
Proof.
  unfold binary_round_aux. destruct (shr_fexp _ _ m e l) as [r1 e1].
  destruct (shr_fexp _ _ _ e1 _) as [r2 e2]. destruct (shr_m r2); simpl; try reflexivity.
  now destruct (Z.leb _ _).
Qed.
Lemma round_opp s m e : binary_round prec emax (negb s) m e = SFopp (binary_round prec emax s m e).
Proof. unfold binary_round. destruct (shl_align _ _ _). apply round_aux_opp. Qed.

Lemma mul_opp_l a b : fmul (SFopp a) b = SFopp (fmul a b).
Proof.
  destruct a as [s|s| |s m e], b as [t|t| |t n f]; simpl; try reflexivity; rewrite ?negb_xorb_l; try reflexivity.
  now rewrite <- negb_xorb_l, round_aux_opp.
Qed.
Lemma mul_opp_r a b : fmul a (SFopp b) = SFopp (fmul a b).
Proof.
  destruct a as [s|s| |s m e], b as [t|t| |t n f]; simpl; try reflexivity; rewrite ?negb_xorb_r; try reflexivity.
  now rewrite <- negb_xorb_r, round_aux_opp.
Qed.
Lemma mul_opp_opp a b : fmul (SFopp a) (SFopp b) = fmul a b.
Proof. now rewrite mul_opp_l, mul_opp_r, opp_opp. Qed.
Lemma div_opp_l a b : fdiv (SFopp a) b = SFopp (fdiv a b).
Proof.
  destruct a as [s|s| |s m e], b as [t|t| |t n f]; cbn [SFopp SFdiv]; try reflexivity; rewrite ?negb_xorb_l; try reflexivity.
  destruct (SFdiv_core_binary _ _ _ _ _ _) as [[q e'] l]. now rewrite <- negb_xorb_l, round_aux_opp.
Qed.

Lemma normalize_opp m e : m <> 0%Z -> binary_normalize prec emax (- m) e false = SFopp (binary_normalize prec emax m e false).
Proof.
  destruct m as [|m|m]; intros H; [congruence| |]; simpl.
  - apply (round_opp false).
  - rewrite <- (opp_opp (binary_round _ _ false m e)), <- round_opp. reflexivity.
Qed.
Lemma normalize_opp0 m e : opposite (binary_normalize prec emax (- m) e false) (binary_normalize prec emax m e false).
Proof.
  destruct (Z.eq_dec m 0) as [->|H].
  - right. now exists false, true.
  - left. now apply normalize_opp.
Qed.

Lemma same_refl a : same_value a a.
Proof. now left. Qed.
Lemma same_sym a b : same_value a b -> same_value b a.
Proof. intros [->|[s [t [-> ->]]]]; [now left|right; now exists t, s]. Qed.
Lemma same_trans a b c : same_value a b -> same_value b c -> same_value a c.
Proof.
  intros [->|[s [t [-> ->]]]] H; [exact H|].
  destruct H as [<-|[s' [t' [_ ->]]]]; right; eauto.
Qed.
Lemma same_opp a b : same_value a b -> same_value (SFopp a) (SFopp b).
Proof. intros [->|[s [t [-> ->]]]]; [now left|right; simpl; eauto]. Qed.

(** ** Swapping a difference *)
Lemma cond_Zopp_0 s m : cond_Zopp s (Zpos m) <> 0%Z.
Proof. destruct s; simpl; lia. Qed.
Lemma sub_swap a b : fsub a b = SFopp (fsub b a) \/ (fsub a b = fsub b a /\ exists s, fsub a b = S754_zero s).
Proof.
  destruct a as [s|s| |s m e], b as [t|t| |t n f]; simpl; try (now left);
    try (left; now rewrite negb_involutive);
    try (destruct s; destruct t; simpl; auto; right; split; eauto; fail).
  - rewrite (Z.min_comm f e). set (u := cond_Zopp s _). set (v := cond_Zopp t _).
    replace (v - u)%Z with (- (u - v))%Z by lia.
    destruct (Z.eq_dec (u - v) 0) as [->|H].
    + right. split; [reflexivity|]. now exists false.
    + left. now rewrite normalize_opp, opp_opp.
Qed.
Lemma sub_opposite a b : opposite (fsub a b) (fsub b a).
Proof.
  destruct (sub_swap a b) as [H|[H [s Hs]]]; [now left|].
  right. rewrite <- H, Hs. exists s. eexists. split; reflexivity.
Qed.
Lemma sub_pm a b : fsub a b = fsub b a \/ fsub a b = SFopp (fsub b a).
Proof. destruct (sub_swap a b) as [H|[H _]]; auto. Qed.

(** ** Values up to the sign of zero *)
Lemma same_mul a a' b b' : same_value a a' -> same_value b b' -> same_value (fmul a b) (fmul a' b').
Proof.
  intros [->|[s [t [-> ->]]]] [->|[s' [t' [-> ->]]]].
  - now left.
  - destruct a'; simpl; try (now left); right; eauto.
  - destruct b'; simpl; try (now left); right; eauto.
  - right; simpl; eauto.
Qed.
Lemma same_add a a' b b' : same_value a a' -> same_value b b' -> same_value (fadd a b) (fadd a' b').
Proof.
  intros [->|[s [t [-> ->]]]] [->|[s' [t' [-> ->]]]].
  - now left.
  - destruct a' as [u|u| |u m e]; simpl; try (now left). right.
    destruct (Bool.eqb u s'), (Bool.eqb u t'); eauto.
  - destruct b' as [u|u| |u m e]; simpl; try (now left). right.
    destruct (Bool.eqb s u), (Bool.eqb t u); eauto.
  - right; simpl. destruct (Bool.eqb s s'), (Bool.eqb t t'); eauto.
Qed.
Lemma same_sub a a' b b' : same_value a a' -> same_value b b' -> same_value (fsub a b) (fsub a' b').
Proof.
  intros [->|[s [t [-> ->]]]] [->|[s' [t' [-> ->]]]].
  - now left.
  - destruct a' as [u|u| |u m e]; simpl; try (now left). right.
    destruct (Bool.eqb u (negb s')), (Bool.eqb u (negb t')); eauto.
  - destruct b' as [u|u| |u m e]; simpl; try (now left). right.
    destruct (Bool.eqb s (negb u)), (Bool.eqb t (negb u)); eauto.
  - right; simpl. destruct (Bool.eqb s (negb s')), (Bool.eqb t (negb t')); eauto.
Qed.
Lemma cond_negb s m : cond_Zopp (negb s) m = (- cond_Zopp s m)%Z.
Proof. destruct s; simpl; lia. Qed.
Lemma add_opp_opp a b : opposite (fadd (SFopp a) (SFopp b)) (fadd a b).
Proof.
  destruct a as [s|s| |s m e], b as [t|t| |t n f]; simpl; try (now left).
  - right. destruct s, t; simpl; eauto.
  - destruct s, t; simpl; left; reflexivity.
  - rewrite !cond_negb. match goal with |- context [(- ?u + - ?v)%Z] => replace (- u + - v)%Z with (- (u + v))%Z by lia end.
    apply normalize_opp0.
Qed.
Lemma sub_opp_opp a b : opposite (fsub (SFopp a) (SFopp b)) (fsub a b).
Proof.
  destruct a as [s|s| |s m e], b as [t|t| |t n f]; simpl; try (now left).
  - right. destruct s, t; simpl; eauto.
  - destruct s, t; simpl; left; reflexivity.
  - rewrite !cond_negb. match goal with |- context [(- ?u - - ?v)%Z] => replace (- u - - v)%Z with (- (u - v))%Z by lia end.
    apply normalize_opp0.
Qed.

(** ** Programs on swapped points *)
Section Swap.
Variables (lb : lib) (x y : farr).
Notation R1 := (frun prec emax lb x y).
Notation R2 := (frun prec emax lb y x).
Definition PE (p : prog) : Prop := R1 p = R2 p.
Definition PS (p : prog) : Prop := same_value (R1 p) (R2 p).
Definition PO (p : prog) : Prop := opposite (R1 p) (R2 p).
Definition PM (p : prog) : Prop := R1 p = R2 p \/ R1 p = SFopp (R2 p).

Lemma PE_PS p : PE p -> PS p.
Proof. now left. Qed.
Lemma PM_diff i : PM (pdiff i).
Proof. apply sub_pm. Qed.
Lemma PO_diff i : PO (pdiff i).
Proof. apply sub_opposite. Qed.
Lemma PE_cst c : PE (PCst c).
Proof. reflexivity. Qed.
Lemma PE_add p q : PE p -> PE q -> PE (PAdd p q).
Proof. unfold PE; simpl; now intros -> ->. Qed.
Lemma PE_sub p q : PE p -> PE q -> PE (PSub p q).
Proof. unfold PE; simpl; now intros -> ->. Qed.
Lemma PE_mul p q : PE p -> PE q -> PE (PMul p q).
Proof. unfold PE; simpl; now intros -> ->. Qed.
Lemma PE_neg p : PE p -> PE (PNeg p).
Proof. unfold PE; simpl; now intros ->. Qed.
Lemma PE_exp p : PE p -> PE (PExp p).
Proof. unfold PE; simpl; now intros ->. Qed.
Lemma PE_sqrt p : PE p -> PE (PSqrt p).
Proof. unfold PE; simpl; now intros ->. Qed.
Lemma PE_where r p q : PE r -> PE p -> PE q -> PE (PWhere r p q).
Proof. unfold PE; simpl; now intros -> -> ->. Qed.
Lemma PM_mulc p c : PM p -> PM (PMul p (PCst c)).
Proof. intros [H|H]; [left|right]; simpl; rewrite H; [reflexivity|apply mul_opp_l]. Qed.
Lemma PM_cmul p c : PM p -> PM (PMul (PCst c) p).
Proof. intros [H|H]; [left|right]; simpl; rewrite H; [reflexivity|apply mul_opp_r]. Qed.
Lemma PM_divc p c : PM p -> PM (PDiv p (PCst c)).
Proof. intros [H|H]; [left|right]; simpl; rewrite H; [reflexivity|apply div_opp_l]. Qed.
Lemma PM_sq p : PM p -> PE (PPow p 2).
Proof. unfold PE; intros [H|H]; simpl; rewrite H; [reflexivity|]. now rewrite mul_opp_opp. Qed.
Lemma PM_prod p c : PM p -> PE (PMul (PMul (PCst c) p) p).
Proof. unfold PE; intros [H|H]; simpl; rewrite H; [reflexivity|]. now rewrite !mul_opp_r, mul_opp_l, opp_opp. Qed.
Lemma PE_psum l : (forall p, In p l -> PE p) -> PE (psum l).
Proof.
  induction l as [|p l IH]; intros H; [reflexivity|]. cbn [psum fold_right]. apply PE_add; [apply H; now left|].
  apply IH. intros q Hq. apply H. now right.
Qed.
Lemma PE_bsum sh f : (forall i, PE (f i)) -> PE (pbsum sh f).
Proof. intros H. apply PE_psum. intros p Hp. apply in_map_iff in Hp. destruct Hp as [i [<- _]]. apply H. Qed.
Lemma PE_sqdist sh s : PE (sqdist_prog sh s).
Proof.
  apply PE_psum. intros p Hp. apply in_map_iff in Hp. destruct Hp as [i [<- _]]. apply PM_sq, PM_mulc, (PM_diff i).
Qed.
Lemma PE_dist sh s : PE (dist_prog sh s).
Proof. apply PE_sqrt, PE_sqdist. Qed.
Lemma PE_horner cs p : PE p -> PE (horner_prog cs p).
Proof.
  intros H. unfold horner_prog. generalize (PE_cst (nth (length cs - 1) cs 0%R)).
  generalize (PCst (nth (length cs - 1) cs 0%R)). induction (rev (seq 0 (length cs - 1))) as [|k l IH]; intros q Hq; [exact Hq|].
  cbn [fold_left]. apply IH. apply PE_add; [now apply PE_mul|reflexivity].
Qed.
Lemma PE_expquad e : PE (expquad_prog e).
Proof. apply PE_exp, PE_neg, PE_sqdist. Qed.
Lemma PE_matern m p : matern_prog m = Ok p -> PE p.
Proof.
  unfold matern_prog. destruct (mt_nu m); [|discriminate]. intros [= <-]. apply PE_mul; [apply PE_horner, PE_dist|apply PE_exp, PE_neg, PE_dist].
Qed.
Lemma PE_wendland w : PE (wendland_prog w).
Proof. apply PE_where; [apply PE_dist|apply PE_horner, PE_dist|reflexivity]. Qed.
Lemma PE_pexp_len e : PE (pexp_len e).
Proof. apply PE_exp, PE_mul; [reflexivity|]. apply PE_bsum. intros i. apply PM_sq, PM_divc, PM_diff. Qed.
Lemma PE_pexp_scale e : PE (pexp_scale e).
Proof. apply PE_exp, PE_neg. apply PE_bsum. intros i. apply PM_sq, PM_cmul, PM_diff. Qed.
Lemma PE_explap e w : PE (explap_prog e w).
Proof.
  apply PE_mul; [|apply PE_pexp_scale]. apply PE_sub; [|reflexivity]. apply PE_bsum. intros i. apply PM_prod, PM_diff.
Qed.
Lemma PE_sq sh a : PE (pbsum sh (fun i => PMul (PCst (a i)) (PPow (pdiff i) 2))).
Proof. apply PE_bsum. intros i. apply PE_mul; [reflexivity|]. apply PM_sq, PM_diff. Qed.
Lemma PE_explaplap e w0 w1 p : cov_prog (CExpLapLap e w0 w1) = Ok p -> PE p.
Proof.
  intros [= <-]. apply PE_mul; [|apply PE_pexp_scale]. apply PE_add; [|reflexivity]. apply PE_sub.
  - apply PE_mul; apply PE_sub; try reflexivity; apply PE_sq.
  - apply PE_mul; [reflexivity|apply PE_sq].
Qed.
Lemma PE_mt_poly m q : PE (mt_poly m q).
Proof. apply PE_horner, PE_dist. Qed.
Lemma PE_mt_exp m : PE (mt_exp m).
Proof. apply PE_exp, PE_neg, PE_dist. Qed.

Lemma squares_exact : forall n c p, (csize c <= n)%nat -> squares_only c = true -> cov_prog c = Ok p -> PE p.
Proof.
  induction n as [|n IH]; intros c p Hn Hs H; [destruct c; cbn [csize] in Hn; lia|].
  destruct c as [c|c d r|c d0 d1|c w r|c w0 w1|c d w r|m|m d r q|m d0 d1 a b|m d0 d1 q|m w r q|m w0 w1 q|m d w r q|s c|cs|sh f|]; try discriminate.
  - injection H as <-. apply PE_expquad.
  - injection H as <-. apply PE_explap.
  - eapply PE_explaplap, H.
  - exact (PE_matern m p H).
  - injection H as <-. apply PE_mul; [apply PE_mul; [reflexivity|apply PE_mt_poly]|apply PE_mt_exp].
  - injection H as <-. apply PE_mul; [apply PE_mul; [reflexivity|apply PE_mt_exp]|apply PE_mt_poly].
  - injection H as <-. apply PE_mul; [apply PE_mul; [reflexivity|apply PE_mt_exp]|apply PE_mt_poly].
  - cbn [cov_prog] in H. destruct (cov_prog c) as [q|] eqn:E; [|discriminate]. injection H as <-.
    apply PE_mul; [reflexivity|]. apply (IH c); auto. cbn [csize] in Hn. lia.
  - rewrite cov_prog_sum in H. destruct (cprogs cs) as [ps|] eqn:E; [|discriminate]. cbn [bind] in H.
    apply (preduce_all PE PE_add ps p H). apply cprogs_in in E.
    assert (L : forall c, In c cs -> (csize c <= n)%nat) by (intros c Hc; apply csize_in in Hc; lia). clear Hn H.
    induction E as [|c q cs ps Hq E IE]; intros p' Hp; [contradiction|].
    cbn [squares_only] in Hs. apply andb_true_iff in Hs. destruct Hs as [Hc Hs].
    destruct Hp as [<-|Hp]; [apply (IH c); auto; apply L; now left|]. apply IE; auto. intros c' Hc'. apply L. now right.
Qed.

(** Up to the sign of zero *)
Lemma PS_mul p q : PS p -> PS q -> PS (PMul p q).
Proof. apply same_mul. Qed.
Lemma PS_add p q : PS p -> PS q -> PS (PAdd p q).
Proof. apply same_add. Qed.
Lemma PS_sub p q : PS p -> PS q -> PS (PSub p q).
Proof. apply same_sub. Qed.
Lemma PO_add p q : PO p -> PO q -> PO (PAdd p q).
Proof. intros H K. eapply same_trans; [exact (same_add _ _ _ _ H K)|]. apply add_opp_opp. Qed.
Lemma PO_sub p q : PO p -> PO q -> PO (PSub p q).
Proof. intros H K. eapply same_trans; [exact (same_sub _ _ _ _ H K)|]. apply sub_opp_opp. Qed.
Lemma PO_neg p : PO p -> PO (PNeg p).
Proof. apply same_opp. Qed.
Lemma PO_mul_l p q : PO p -> PS q -> PO (PMul p q).
Proof. intros H K. eapply same_trans; [exact (same_mul _ _ _ _ H K)|]. left. apply mul_opp_l. Qed.
Lemma PO_mul_r p q : PS p -> PO q -> PO (PMul p q).
Proof. intros H K. eapply same_trans; [exact (same_mul _ _ _ _ H K)|]. left. apply mul_opp_r. Qed.
Lemma PS_mul_OO p q : PO p -> PO q -> PS (PMul p q).
Proof. intros H K. eapply same_trans; [exact (same_mul _ _ _ _ H K)|]. left. apply mul_opp_opp. Qed.
Hypothesis zero : exists s, l_cst lb 0 = S754_zero s.
Lemma PO_psum l : (forall p, In p l -> PO p) -> PO (psum l).
Proof.
  induction l as [|p l IH]; intros H.
  - destruct zero as [s Hs]. right. cbn [psum fold_right frun]. rewrite Hs. simpl. eauto.
  - cbn [psum fold_right]. apply PO_add; [apply H; now left|]. apply IH. intros q Hq. apply H. now right.
Qed.
Lemma PO_bsum sh f : (forall i, PO (f i)) -> PO (pbsum sh f).
Proof. intros H. apply PO_psum. intros p Hp. apply in_map_iff in Hp. destruct Hp as [i [<- _]]. apply H. Qed.
Lemma PO_pproj sh a : PO (pproj sh a).
Proof. apply PO_bsum. intros i. apply PO_mul_r; [apply PE_PS; reflexivity|apply PO_diff]. Qed.
Lemma PO_mt_proj m a : PO (mt_proj m a).
Proof.
  apply PO_bsum. intros i. apply PO_mul_r; [apply PE_PS; reflexivity|]. apply PO_mul_l; [apply PO_diff|apply PE_PS; reflexivity].
Qed.
Definition parity_ok (b : bool) (p : prog) : Prop := if b then PO p else PS p.
Lemma parity_add b p q : parity_ok b p -> parity_ok b q -> parity_ok b (PAdd p q).
Proof. destruct b; [apply PO_add|apply PS_add]. Qed.
Lemma odd_order_sum cs b : odd_order (CSum cs) = Some b -> forall c, In c cs -> odd_order c = Some b.
Proof.
  cbn [odd_order]. induction cs as [|c cs IH]; [discriminate|]. destruct cs as [|c' cs].
  - intros H d [<-|[]]. exact H.
  - destruct (odd_order c) as [a|] eqn:E; [|discriminate].
    match goal with |- match ?g with _ => _ end = _ -> _ => destruct g as [a'|] eqn:G; [|discriminate] end.
    destruct (Bool.eqb a a') eqn:E2; [|discriminate]. apply eqb_prop in E2. subst a'. intros [= <-] d [<-|Hd]; [exact E|]. now apply IH.
Qed.
Lemma parity_all : forall n c p b, (csize c <= n)%nat -> odd_order c = Some b -> cov_prog c = Ok p -> parity_ok b p.
Proof.
  induction n as [|n IH]; intros c p b Hn Hs H; [destruct c; cbn [csize] in Hn; lia|].
  destruct c as [c|c d r|c d0 d1|c w r|c w0 w1|c d w r|m|m d r q|m d0 d1 a a'|m d0 d1 q|m w r q|m w0 w1 q|m d w r q|s c|cs|sh f|]; try discriminate;
    try (injection Hs as <-; apply PE_PS; exact (squares_exact (S n) _ p Hn eq_refl H)).
  - injection Hs as <-. injection H as <-. apply PO_mul_l; [apply PO_pproj|apply PE_PS, PE_pexp_len].
  - injection Hs as <-. injection H as <-. apply PS_mul; [|apply PE_PS, PE_pexp_len]. apply PS_sub; [apply PE_PS; reflexivity|].
    apply PS_mul_OO; apply PO_pproj.
  - injection Hs as <-. injection H as <-.
    match goal with |- parity_ok true (if r then PNeg ?k else ?k) => assert (K : PO k) end.
    { apply PO_sub.
      - apply PO_mul_l; [|apply PE_PS, PE_expquad]. apply PO_mul_r; [apply PE_PS; reflexivity|apply PO_pproj].
      - apply PO_mul_l; [apply PO_pproj|apply PE_PS, PE_explap]. }
    destruct r; [apply PO_neg, K|exact K].
  - injection Hs as <-. injection H as <-. apply PO_mul_r; [|apply PO_mt_proj]. apply PE_PS, PE_mul; [apply PE_mt_poly|apply PE_mt_exp].
  - injection Hs as <-. injection H as <-. apply PS_mul; [|apply PE_PS, PE_mt_exp]. apply PS_sub.
    + apply PE_PS, PE_mul; [reflexivity|apply PE_mt_poly].
    + apply PS_mul; [apply PS_mul_OO; apply PO_mt_proj|apply PE_PS, PE_mt_poly].
  - injection Hs as <-. injection H as <-. apply PO_mul_r; [|apply PO_mt_proj]. apply PE_PS, PE_mul; [apply PE_mt_exp|apply PE_mt_poly].
  - cbn [odd_order] in Hs. cbn [cov_prog] in H. destruct (cov_prog c) as [q|] eqn:E; [|discriminate]. injection H as <-.
    assert (K : parity_ok b q) by (apply (IH c); auto; cbn [csize] in Hn; lia).
    destruct b; [apply PO_mul_r; [apply PE_PS; reflexivity|exact K]|apply PS_mul; [apply PE_PS; reflexivity|exact K]].
  - rewrite cov_prog_sum in H. destruct (cprogs cs) as [ps|] eqn:E; [|discriminate]. cbn [bind] in H.
    apply (preduce_all (parity_ok b) (parity_add b) ps p H). apply cprogs_in in E.
    assert (L : forall c, In c cs -> (csize c <= n)%nat) by (intros c Hc; apply csize_in in Hc; lia).
    assert (M := odd_order_sum cs b Hs). clear Hn H Hs.
    induction E as [|c q cs ps Hq E IE]; intros p' Hp; [contradiction|].
    destruct Hp as [<-|Hp]; [apply (IH c); auto; [apply L|apply M]; now left|]. apply IE; auto; intros c' Hc'; [apply L|apply M]; now right.
Qed.

(** *** The other argument *)
Hypothesis odd : forall c, opposite (l_cst lb (- c)) (l_cst lb c).
Definition PX (p q : prog) : Prop := same_value (R1 p) (R2 q).
Lemma PX_sum sh f g : (forall i, PX (f i) (g i)) -> PX (pbsum sh f) (pbsum sh g).
Proof.
  intros H. unfold pbsum. induction (all_indices sh) as [|i l IH]; [left; reflexivity|]. cbn [map psum fold_right]. apply same_add; [apply H|exact IH].
Qed.
Lemma PX_term a b i : b = (- a)%R -> PX (PMul (PCst a) (pdiff i)) (PMul (PCst b) (pdiff i)).
Proof.
  intros ->. unfold PX. cbn [frun]. fold (frun prec emax lb).
  eapply same_trans; [apply same_mul; [left; reflexivity|exact (PO_diff i)]|]. rewrite mul_opp_r, <- mul_opp_l.
  apply same_sym, same_mul; [apply odd|left; reflexivity].
Qed.
Lemma PX_proj sh a b : (forall i, b i = - a i)%R -> PX (pproj sh a) (pproj sh b).
Proof. intros H. apply PX_sum. intros i. apply PX_term, H. Qed.
Lemma PX_mt_proj m a b : (forall i, b i = - a i)%R -> PX (mt_proj m a) (mt_proj m b).
Proof.
  intros H. apply PX_sum. intros i. unfold PX. cbn [frun]. rewrite H.
  eapply same_trans; [apply same_mul; [left; reflexivity|]; apply same_mul; [exact (PO_diff i)|left; reflexivity]|].
  rewrite mul_opp_l, mul_opp_r, <- mul_opp_l. apply same_sym, same_mul; [apply odd|left; reflexivity].
Qed.
Lemma PX_mul p q p' q' : PX p p' -> PX q q' -> PX (PMul p q) (PMul p' q').
Proof. apply same_mul. Qed.
Lemma cov_prog_scaled s c p : cov_prog (CScaled s c) = Ok p -> exists q, cov_prog c = Ok q /\ p = PMul (PCst s) q.
Proof. cbn [cov_prog]. destruct (cov_prog c) as [q|]; [|discriminate]. intros [= <-]. eauto. Qed.
Lemma PX_reduce ps : forall qs p q, Forall2 PX ps qs -> preduce ps = Ok p -> preduce qs = Ok q -> PX p q.
Proof.
  intros qs p q H. destruct H as [|p0 q0 ps qs H0 H]; [discriminate|]. intros [= <-] [= <-].
  revert p0 q0 H0. induction H as [|a b ps qs Hab H IH]; intros p0 q0 H0; [exact H0|]. cbn [fold_left]. apply IH. now apply same_add.
Qed.
Lemma even_same : forall c p q, cov_prog c = Ok p -> cov_prog c = Ok q -> odd_order c = Some false -> PX p q.
Proof. intros c p q H1 H2 H. rewrite H1 in H2. injection H2 as <-. exact (parity_all _ c p false (le_n _) H H1). Qed.
Lemma mirror_all : forall n c p q, (csize c <= n)%nat -> cov_prog c = Ok p -> cov_prog (mirrored c) = Ok q -> PX p q.
Proof.
  induction n as [|n IH]; intros c p q Hn H K; [destruct c; cbn [csize] in Hn; lia|].
  destruct c as [c|c d r|c d0 d1|c w r|c w0 w1|c d w r|m|m d r a|m d0 d1 a a'|m d0 d1 a|m w r a|m w0 w1 a|m d w r a|s c|cs|sh f|]; try discriminate;
    try (apply (even_same _ p q H K); reflexivity).
  - injection H as <-. injection K as <-. apply PX_mul; [|left; apply PE_pexp_len]. apply PX_proj. intros i. unfold expdir_rescaled. destruct r; cbn [negb]; ring.
  - assert (P := parity_all _ (CExpDirLap c d w r) p true (le_n _) eq_refl H). cbn [parity_ok] in P. unfold PX, PO, opposite in *.
    injection H as <-. injection K as <-. destruct r; cbn [negb frun] in *.
    + eapply same_trans; [exact P|]. rewrite opp_opp. apply same_refl.
    + exact P.
  - injection H as <-. injection K as <-. apply PX_mul; [left; apply PE_mul; [apply PE_mt_poly|apply PE_mt_exp]|].
    apply PX_mt_proj. intros i. unfold matdir_scaled. destruct r; cbn [negb]; ring.
  - injection H as <-. injection K as <-. apply PX_mul; [left; apply PE_mul; [apply PE_mt_exp|apply PE_mt_poly]|].
    apply PX_mt_proj. intros i. unfold umatdirlap_scaled. destruct r; cbn [negb]; ring.
  - cbn [mirrored] in K. apply cov_prog_scaled in H, K. destruct H as [p' [H ->]], K as [q' [K ->]].
    apply PX_mul; [left; reflexivity|]. apply (IH c); auto. cbn [csize] in Hn. lia.
  - cbn [mirrored] in K. rewrite cov_prog_sum in H, K. destruct (cprogs cs) as [ps|] eqn:E; [|discriminate]. destruct (cprogs (map mirrored cs)) as [qs|] eqn:G; [|discriminate].
    cbn [bind] in H, K. refine (PX_reduce ps qs p q _ H K). apply cprogs_in in E, G.
    assert (L : forall c, In c cs -> (csize c <= n)%nat) by (intros c Hc; apply csize_in in Hc; lia). clear Hn H K.
    revert qs G. induction E as [|c p' cs ps Hp E IE]; intros qs G; inversion G as [|c' q' cs' qs' Hq G' E1 E2]; subst; constructor.
    + apply (IH c); auto. apply L. now left.
    + apply IE; auto. intros c' Hc'. apply L. now right.
Qed.
End Swap.

(** ** Equal points *)
Definition finite_f (a : spec_float) : Prop := match a with S754_zero _ | S754_finite _ _ _ => True | _ => False end.
Lemma sub_self a : finite_f a -> fsub a a = S754_zero false.
Proof.
  destruct a as [s|s| |s m e]; simpl; try contradiction; intros _.
  - now destruct s.
  - rewrite Z.sub_diag. reflexivity.
Qed.
Lemma mul_zero_l s a : finite_f a -> exists t, fmul (S754_zero s) a = S754_zero t.
Proof. destruct a; simpl; try contradiction; eauto. Qed.
Lemma mul_zero_r s a : finite_f a -> exists t, fmul a (S754_zero s) = S754_zero t.
Proof. destruct a; simpl; try contradiction; eauto. Qed.
Lemma sq_zero s : fpow prec emax (S754_zero s) 2 = S754_zero false.
Proof. cbn [fpow fpow_pos SFmul]. now rewrite xorb_nilpotent. Qed.
Section Equal.
Variables (lb : lib) (x : farr).
Notation R1 := (frun prec emax lb x x).
Hypothesis zero : l_cst lb 0 = S754_zero false.
Lemma sqdist_self sh s : (forall i, In i (all_indices sh) -> finite_f (x i) /\ finite_f (l_cst lb (s i))) -> R1 (sqdist_prog sh s) = S754_zero false.
Proof.
  intros H. unfold sqdist_prog. induction (all_indices sh) as [|i l IH]; [exact zero|].
  cbn [map psum fold_right frun]. rewrite sub_self by (apply H; now left).
  destruct (mul_zero_l false (l_cst lb (s i))) as [t Ht]; [apply H; now left|]. rewrite Ht, sq_zero.
  unfold psum in IH. rewrite IH; [reflexivity|]. intros j Hj. apply H. now right.
Qed.
Lemma horner_zero cs p c : R1 p = S754_zero false -> (forall c, In c cs -> finite_f (l_cst lb c)) -> cs <> [] ->
  nth 0 cs 0%R = c -> (exists s m e, l_cst lb c = S754_finite s m e) -> R1 (horner_prog cs p) = l_cst lb c.
Proof.
  intros Hp Hf Hne Hc (s & m & e & Hs). unfold horner_prog.
  assert (Ft : forall k, (k < length cs)%nat -> finite_f (l_cst lb (nth k cs 0%R))) by (intros k Hk; apply Hf; now apply nth_In).
  assert (G : forall n q, (n <= length cs)%nat -> finite_f (R1 q) -> (0 < n)%nat ->
    R1 (fold_left (fun res k => PAdd (PMul res p) (PCst (nth k cs 0%R))) (rev (seq 0 n)) q) = l_cst lb c).
  { induction n as [|n IH]; intros q Hn Hq Hpos; [lia|]. rewrite seq_S, rev_app_distr. cbn [rev app fold_left Nat.add].
    assert (V : exists t, R1 (PMul q p) = S754_zero t) by (cbn [frun]; rewrite Hp; now apply mul_zero_r). destruct V as [t V].
    destruct n as [|n].
    - cbn [seq rev fold_left frun]. cbn [frun] in V. rewrite V, Hc, Hs. reflexivity.
    - apply IH; [lia| |lia]. cbn [frun]. cbn [frun] in V. rewrite V.
      assert (F := Ft (S n) ltac:(lia)). destruct (l_cst lb (nth (S n) cs 0%R)) as [u|u| |u m' e']; try contradiction; cbn [SFadd finite_f]; [|exact I].
      now destruct (Bool.eqb t u). }
  destruct cs as [|a [|b cs]]; [congruence| |].
  - cbn [length Nat.sub seq rev fold_left frun nth] in *. now rewrite Hc.
  - apply G; [cbn [length]; lia| |cbn [length]; lia]. cbn [frun]. apply Ft. cbn [length]. lia.
Qed.
End Equal.
End Format.
