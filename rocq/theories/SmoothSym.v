(** Infinitely differentiable functions: products, exponentials, Gaussians. *)
From Coq Require Import List Reals Lra Lia Bool Arith FunctionalExtensionality Permutation.
From Coquelicot Require Import Coquelicot.
From Verif Require Import Base NdArray FunExprModel DiffopModel DiffopSpec DiffopProofs LfoModel LfoSpec LfoSmooth
  KernelModel KernelSpec KernelCalc KernelSmooth TensorSchur PsdDiff PdeCondSpec.
Import ListNotations.
Open Scope R_scope.

Section S.
Variable sh : shape.
Notation val := (valid_index sh).
(** Smooth functions depend on the coordinates of the point only. *)
Lemma smooth_agree f x y : smooth sh f -> agree sh x y -> f x = f y.
Proof.
  intros S A. set (g := fun t => f (fun j => x j + t * (y j - x j))).
  assert (D : forall t, is_derive g t 0).
  { intros t. pose proof (smooth_diff1 sh f S (fun j => y j - x j) (fun j => x j + t * (y j - x j))) as D.
    rewrite total_zero in D.
    2: { intros i Hi. apply all_indices_spec in Hi. rewrite (A i Hi). ring. }
    assert (E : is_derive (fun s => g (t + s)) 0 0).
    { apply (is_derive_ext (fun s => f (fun j => x j + t * (y j - x j) + s * (y j - x j)))); [|exact D].
      intros s. unfold g. f_equal. extensionality j. ring. }
    pose proof (is_derive_comp (fun s => g (t + s)) (fun u => u - t) t 0 1) as C. cbn beta in C. replace (t - t) with 0 in C by ring.
    specialize (C E ltac:(auto_derive; [trivial|ring])). unfold scal in C. cbn in C. unfold mult in C. cbn in C. rewrite Rmult_0_r in C.
    apply (is_derive_ext (fun u => g (t + (u - t)))); [|exact C]. intros u. f_equal. ring. }
  assert (E : g 0 = g 1).
  { assert (L := MVT_gen g 0 1 (fun _ => 0)). destruct L as (c & _ & L).
    - intros t _. apply D.
    - intros t _. apply continuity_pt_filterlim. apply (ex_derive_continuous g). eexists. apply D.
    - lra. }
  unfold g in E.
  replace (fun j => x j + 0 * (y j - x j)) with x in E by (extensionality j; ring).
  replace (fun j => x j + 1 * (y j - x j)) with y in E by (extensionality j; ring). exact E.
Qed.

Lemma pd_mult i f g x : smooth sh f -> smooth sh g -> pd i (fun y => f y * g y) x = pd i f x * g x + f x * pd i g x.
Proof.
  intros Sf Sg. rewrite !pd_along.
  rewrite (Derive_mult (fun t => f (fun j => x j + t * unitv i j)) (fun t => g (fun j => x j + t * unitv i j))).
  - replace (fun j => x j + 0 * unitv i j) with x by (extensionality j; ring). reflexivity.
  - eapply diff1_ex. now apply (smooth_diff1 sh).
  - eapply diff1_ex. now apply (smooth_diff1 sh).
Qed.
Lemma diff1_mult f g : smooth sh f -> smooth sh g -> diff1 sh (fun y => f y * g y).
Proof.
  intros Sf Sg v x.
  rewrite (total_ext _ (fun i => g x * (v i * pd i f x) + f x * (v i * pd i g x))).
  2: { intros i _. rewrite pd_mult by assumption. ring. }
  rewrite total_plus, !total_mult.
  pose proof (is_derive_mult (fun t => f (fun j => x j + t * v j)) (fun t => g (fun j => x j + t * v j)) 0 _ _
    (smooth_diff1 sh f Sf v x) (smooth_diff1 sh g Sg v x) Rmult_comm) as D. cbn beta in D.
  replace (fun j => x j + 0 * v j) with x in D by (extensionality j; ring).
  match type of D with is_derive _ _ ?l => match goal with |- is_derive _ _ ?r => replace r with l; [exact D|] end end.
  unfold plus, mult; cbn. ring.
Qed.

Lemma ci_class (P : (array -> R) -> Prop) : (forall g, P g -> diff1 sh g) -> (forall g i, P g -> val i -> P (pd i g)) ->
  (forall g i j, P g -> val i -> val j -> pd i (pd j g) = pd j (pd i g)) -> forall f, P f -> c_infty sh f.
Proof.
  intros H1 H2 H3 f Pf. split; [now apply (smooth_class sh P)|].
  intros w i j Hw Vi Vj. apply H3; [|exact Vi|exact Vj]. clear Vi Vj. revert f Pf. induction Hw as [|u w Vu Hw IH]; intros f Pf; [exact Pf|].
  apply IH. now apply H2.
Qed.
Lemma ci_pd f i : val i -> c_infty sh f -> c_infty sh (pd i f).
Proof. intros V [S C]. split; [now apply smooth_pd|]. intros w j k Hw. apply (C (i :: w)). now constructor. Qed.
Lemma ci_iter f w : List.Forall val w -> c_infty sh f -> c_infty sh (iterD w f).
Proof. intros Hw. revert f. induction Hw as [|i w Vi Hw IH]; intros f C; [exact C|]. apply IH. now apply ci_pd. Qed.
Lemma ci_comm f i j : c_infty sh f -> val i -> val j -> pd i (pd j f) = pd j (pd i f).
Proof. intros [_ C]. apply (C []). constructor. Qed.
Lemma iterD_perm f w w' : c_infty sh f -> List.Forall val w -> Permutation w w' -> iterD w f = iterD w' f.
Proof.
  intros C V P. revert f C V. induction P as [|i w w' P IH|i j w|w1 w2 w3 P1 IH1 P2 IH2]; intros f C V.
  - reflexivity.
  - inversion_clear V. cbn. apply IH; [now apply ci_pd|assumption].
  - inversion_clear V as [|? ? Vj V']. inversion_clear V' as [|? ? Vi Vw]. unfold iterD. cbn [fold_left]. f_equal. now apply ci_comm.
  - rewrite IH1 by assumption. apply IH2; [exact C|]. now apply (Permutation_Forall P1).
Qed.
Lemma ci_const c : c_infty sh (fun _ => c).
Proof.
  apply (ci_class (fun h => exists c, h = fun _ => c)).
  - intros g (d & ->). apply smooth_diff1, smooth_const.
  - intros g i (d & ->) _. exists 0. extensionality y. apply pd_const.
  - intros g i j (d & ->) _ _. extensionality y. assert (E : forall k, pd k (fun _ => d) = fun _ => 0) by (intros k; extensionality u; apply pd_const).
    now rewrite !E, !pd_const.
  - now exists c.
Qed.
Lemma ci_lin a f g : c_infty sh f -> c_infty sh g -> c_infty sh (fun y => a * f y + g y).
Proof.
  intros Cf Cg.
  assert (P : forall f g i, c_infty sh f -> c_infty sh g -> pd i (fun y => a * f y + g y) = fun y => a * pd i f y + pd i g y).
  { intros f' g' i [Sf _] [Sg _]. extensionality y. now apply (pd_lin sh); apply smooth_diff1. }
  apply (ci_class (fun h => exists f g, c_infty sh f /\ c_infty sh g /\ h = fun y => a * f y + g y)).
  - intros h (f' & g' & [Sf _] & [Sg _] & ->). now apply diff1_lin; apply smooth_diff1.
  - intros h i (f' & g' & C1 & C2 & ->) V. exists (pd i f'), (pd i g'). split; [now apply ci_pd|]. split; [now apply ci_pd|]. now apply P.
  - intros h i j (f' & g' & C1 & C2 & ->) Vi Vj. rewrite !P by (try assumption; now apply ci_pd).
    rewrite (ci_comm f' i j), (ci_comm g' i j) by assumption. reflexivity.
  - exists f, g. auto.
Qed.
(** Sums of products of two functions. *)
Definition psum (l : list ((array -> R) * (array -> R))) (x : array) : R := sumR (fun p => fst p x * snd p x) l.
Definition pok (l : list ((array -> R) * (array -> R))) : Prop := forall p, In p l -> c_infty sh (fst p) /\ c_infty sh (snd p).
Definition pder (i : index) (l : list ((array -> R) * (array -> R))) := flat_map (fun p => [(pd i (fst p), snd p); (fst p, pd i (snd p))]) l.
Lemma pok_smooth p l : pok (p :: l) -> smooth sh (fst p) /\ smooth sh (snd p) /\ pok l.
Proof. intros H. destruct (H p (or_introl eq_refl)) as [[A _] [B _]]. split; [exact A|]. split; [exact B|]. intros q Hq. apply H. now right. Qed.
Lemma pok_der i l : val i -> pok l -> pok (pder i l).
Proof.
  intros V H p Hp. apply in_flat_map in Hp as (q & Hq & [<-|[<-|[]]]); cbn; destruct (H q Hq); split; try assumption; now apply ci_pd.
Qed.
Lemma psum_cons p l x : psum (p :: l) x = 1 * (fst p x * snd p x) + psum l x.
Proof. unfold psum. rewrite sumR_cons. ring. Qed.
Lemma psum_diff1 l : pok l -> diff1 sh (psum l).
Proof.
  induction l as [|p l IH]; intros H; [exact (smooth_diff1 sh _ (smooth_const sh 0))|]. apply pok_smooth in H as (A & B & H).
  replace (psum (p :: l)) with (fun y => 1 * (fst p y * snd p y) + psum l y) by (extensionality y; symmetry; apply psum_cons).
  apply diff1_lin; [now apply diff1_mult|now apply IH].
Qed.
Lemma psum_pd i l : pok l -> pd i (psum l) = psum (pder i l).
Proof.
  intros H. extensionality x. induction l as [|p l IH]; [exact (pd_const i 0 x)|]. pose proof H as H'. apply pok_smooth in H' as (A & B & H').
  replace (psum (p :: l)) with (fun y => 1 * (fst p y * snd p y) + psum l y) by (extensionality y; symmetry; apply psum_cons).
  rewrite (pd_lin sh); [|now apply diff1_mult|now apply psum_diff1]. rewrite (IH H'), (pd_mult i (fst p) (snd p)) by assumption.
  unfold pder. cbn [flat_map app]. rewrite !psum_cons. cbn [fst snd]. ring.
Qed.
Lemma psum_comm i j l x : val i -> val j -> pok l -> psum (pder i (pder j l)) x = psum (pder j (pder i l)) x.
Proof.
  intros Vi Vj. induction l as [|p l IH]; intros H; [reflexivity|]. destruct (H p (or_introl eq_refl)) as [A B].
  unfold pder in *. cbn [flat_map app]. rewrite !psum_cons. cbn [fst snd]. rewrite IH by (intros q Hq; apply H; now right).
  rewrite (ci_comm (fst p) i j), (ci_comm (snd p) i j) by assumption. ring.
Qed.
Lemma ci_mult f g : c_infty sh f -> c_infty sh g -> c_infty sh (fun y => f y * g y).
Proof.
  intros Cf Cg. apply (ci_class (fun h => exists l, pok l /\ h = psum l)).
  - intros h (l & O & ->). now apply psum_diff1.
  - intros h i (l & O & ->) V. exists (pder i l). split; [now apply pok_der|now apply psum_pd].
  - intros h i j (l & O & ->) Vi Vj. rewrite !(psum_pd _ l), !psum_pd by (try assumption; now apply pok_der). extensionality x. now apply psum_comm.
  - exists [(f, g)]. split; [intros p [<-|[]]; auto|]. extensionality x. rewrite psum_cons. cbn. unfold psum, sumR. cbn. ring.
Qed.
(** Sections of polynomials times Gaussians. *)
Lemma tdv_comm_same a i j ts x0 x1 : tsev sh (map (tdv a i) (map (tdv a j) ts)) x0 x1 = tsev sh (map (tdv a j) (map (tdv a i) ts)) x0 x1.
Proof.
  destruct (list_eq_dec Nat.eq_dec i j) as [E1|n]; [now subst i|]. unfold tsev. rewrite !map_map. apply total_ext. intros t _. unfold tev. cbn [tdv t_poly t_prec].
  f_equal. cbn [pev pdv epoly]. rewrite (pdv_comm a a i j). unfold kr, tsgn.
  generalize (pev (pdv a j (pdv a i (t_poly t))) x0 x1) (pev (pdv a i (t_poly t)) x0 x1) (pev (pdv a j (t_poly t)) x0 x1) (pev (t_poly t) x0 x1).
  intros p1 p2 p3 p4. generalize (t_prec t). intros h.
  destruct (list_eq_dec Nat.eq_dec i j) as [E1|_]; [now elim n|].
  destruct (list_eq_dec Nat.eq_dec j i) as [E2|_]; [now elim n|].
  destruct a; cbn [Bool.eqb]; ring.
Qed.
Lemma ci_kclass0 k c : kclass sh k -> c_infty sh (fun x => k x c).
Proof.
  intros K. apply (ci_class (fun g => exists ts, tswf sh ts /\ g = fun x => tsev sh ts x c)).
  - intros g (ts & W & ->). exact (proj1 (class_diff1 sh (tsev sh ts) (ex_intro _ ts (conj W eq_refl))) c).
  - intros g i (ts & W & ->) V. exists (map (tdv false i) ts). split; [now apply tdv_wf|].
    extensionality x. exact (f_equal (fun k => k x c) (pd_class sh ts 0 i W V)).
  - intros g i j (ts & W & ->) Vi Vj.
    assert (E : forall ts i, tswf sh ts -> val i -> pd i (fun x => tsev sh ts x c) = fun x => tsev sh (map (tdv false i) ts) x c).
    { intros ts' i' W' V'. extensionality x. exact (f_equal (fun k => k x c) (pd_class sh ts' 0 i' W' V')). }
    rewrite !(E ts), !E by (try assumption; now apply tdv_wf). extensionality x. apply tdv_comm_same.
  - destruct K as (ts & W & ->). now exists ts.
Qed.
Lemma ci_kclass1 k c : kclass sh k -> c_infty sh (fun x => k c x).
Proof.
  intros K. apply (ci_class (fun g => exists ts, tswf sh ts /\ g = fun x => tsev sh ts c x)).
  - intros g (ts & W & ->). exact (proj2 (class_diff1 sh (tsev sh ts) (ex_intro _ ts (conj W eq_refl))) c).
  - intros g i (ts & W & ->) V. exists (map (tdv true i) ts). split; [now apply tdv_wf|].
    extensionality x. exact (f_equal (fun k => k c x) (pd_class sh ts 1 i W V)).
  - intros g i j (ts & W & ->) Vi Vj.
    assert (E : forall ts i, tswf sh ts -> val i -> pd i (fun x => tsev sh ts c x) = fun x => tsev sh (map (tdv true i) ts) c x).
    { intros ts' i' W' V'. extensionality x. exact (f_equal (fun k => k c x) (pd_class sh ts' 1 i' W' V')). }
    rewrite !(E ts), !E by (try assumption; now apply tdv_wf). extensionality x. apply tdv_comm_same.
  - destruct K as (ts & W & ->). now exists ts.
Qed.
(** [exp (sum_i b_i x_i^2 / 2)]. *)
Definition gsq (b : array) (x : array) : R := exp (/ 2 * total (map (fun i => b i * x i ^ 2) (all_indices sh))).
Lemma ci_gsq b : c_infty sh (gsq b).
Proof.
  replace (gsq b) with (fun x => tsev sh [Term (PC 1) (fun i => - b i)] x (fun _ => 0)).
  - apply ci_kclass0. exists [Term (PC 1) (fun i => - b i)]. split; [repeat constructor|reflexivity].
  - extensionality x. unfold tsev, tev, gsq, expo, total. cbn [map fold_right t_poly t_prec pev]. rewrite Rplus_0_r, Rmult_1_l. f_equal.
    fold (total (map (fun i => - b i * (x i - 0) ^ 2) (all_indices sh))). fold (total (map (fun i => b i * x i ^ 2) (all_indices sh))).
    rewrite (total_ext _ (fun i => (-1) * (b i * x i ^ 2))) by (intros; ring). rewrite total_mult. ring.
Qed.
Lemma gsq_inv b x : gsq b x * gsq (fun i => - b i) x = 1.
Proof.
  unfold gsq. rewrite <- exp_plus, <- exp_0. f_equal. rewrite (total_ext (fun i => - b i * x i ^ 2) (fun i => (-1) * (b i * x i ^ 2))) by (intros; ring).
  rewrite total_mult. ring.
Qed.
(** [exp (sum_i z_i x_i)]. *)
Definition lexp (z : array) (x : array) : R := exp (total (map (fun i => z i * x i) (all_indices sh))).
Lemma lexp_line z x v : is_derive (fun t => lexp z (fun j => x j + t * v j)) 0 (total (map (fun i => v i * (z i * lexp z x)) (all_indices sh))).
Proof.
  unfold lexp. assert (G : forall l, is_derive (fun t => total (map (fun i => z i * (x i + t * v i)) l)) 0 (total (map (fun i => z i * v i) l))).
  { induction l as [|i l IH]; [change (is_derive (fun _ : R => 0) 0 0); apply (is_derive_const (V := R_NormedModule))|]. cbn [map]. unfold total. cbn [fold_right].
    apply @is_derive_plus; [|exact IH]. auto_derive; [trivial|ring]. }
  pose proof (is_derive_comp exp (fun t => total (map (fun i => z i * (x i + t * v i)) (all_indices sh))) 0 (exp (total (map (fun i => z i * x i) (all_indices sh))))
    (total (map (fun i => z i * v i) (all_indices sh)))) as M. cbn beta in M.
  rewrite (total_ext (fun i => z i * (x i + 0 * v i)) (fun i => z i * x i)) in M by (intros; ring).
  specialize (M (is_derive_exp _) (G _)). unfold scal in M. cbn in M. unfold mult in M. cbn in M.
  rewrite (total_ext _ (fun i => exp (total (map (fun i => z i * x i) (all_indices sh))) * (z i * v i))) by (intros; ring).
  rewrite total_mult, Rmult_comm. exact M.
Qed.
Lemma lexp_pd z i : val i -> pd i (lexp z) = fun x => z i * lexp z x.
Proof.
  intros V. extensionality x. apply pd_eq. pose proof (lexp_line z x (unitv i)) as D. unfold unitv in D at 2.
  rewrite (total_single (fun j => z j * lexp z x)) in D; [exact D|apply all_nodup|now apply all_indices_spec].
Qed.
Lemma lexp_diff1 z : diff1 sh (lexp z).
Proof.
  intros v x. rewrite (total_ext _ (fun i => v i * (z i * lexp z x))); [apply lexp_line|]. intros i Hi. apply all_indices_spec in Hi. now rewrite lexp_pd.
Qed.
Lemma lexp_scal_diff1 c z : diff1 sh (fun x => c * lexp z x).
Proof.
  replace (fun x => c * lexp z x) with (fun x => c * lexp z x + 0) by (extensionality y; ring).
  apply diff1_lin; [apply lexp_diff1|apply smooth_diff1, smooth_const].
Qed.
Lemma lexp_scal_pd c z i : val i -> pd i (fun x => c * lexp z x) = fun x => c * z i * lexp z x.
Proof.
  intros V. extensionality x. replace (fun x => c * lexp z x) with (fun x => c * lexp z x + 0) by (extensionality y; ring).
  rewrite (pd_lin sh i c (lexp z) (fun _ => 0)); [|apply lexp_diff1|apply smooth_diff1, smooth_const]. rewrite lexp_pd, pd_const by exact V. ring.
Qed.
Lemma ci_lexp z : c_infty sh (lexp z).
Proof.
  apply (ci_class (fun g => exists c, g = fun x => c * lexp z x)).
  - intros g (c & ->). apply lexp_scal_diff1.
  - intros g i (c & ->) V. exists (c * z i). now apply lexp_scal_pd.
  - intros g i j (c & ->) Vi Vj. rewrite !lexp_scal_pd, ?lexp_scal_pd by assumption. extensionality x. ring.
  - exists 1. extensionality x. ring.
Qed.
Lemma lexp_iter z w : List.Forall val w -> iterD w (lexp z) = fun x => fold_right (fun i c => z i * c) 1 w * lexp z x.
Proof.
  intros V. assert (G : forall c, iterD w (fun x => c * lexp z x) = fun x => c * fold_right (fun i c => z i * c) 1 w * lexp z x).
  { induction V as [|i w Vi V IH]; intros c; [extensionality x; cbn; ring|]. unfold iterD. cbn [fold_left fold_right]. rewrite lexp_scal_pd by exact Vi.
    fold (iterD w (fun x => c * z i * lexp z x)). rewrite IH. extensionality x. ring. }
  replace (lexp z) with (fun x => 1 * lexp z x) at 1 by (extensionality x; ring). rewrite G. extensionality x. ring.
Qed.
End S.
