(** Combinations of values and integrals on the line, applied to kernels. *)
From Coq Require Import List Arith Lia Reals Lra FunctionalExtensionality.
From Coquelicot Require Import Coquelicot.
From Verif Require Import Base NdArray ParamSpec ParamProofs TensorSchur PsdBase PsdIntegral.
Import ListNotations.
Open Scope R_scope.

Definition oterms := list (R * obs).
Definition ofun (s : oterms) (f : R -> R) : R := sumR (fun p => fst p * obs_val (snd p) f) s.
Definition odom (s : oterms) : Prop := forall p, In p s -> obs_ok (snd p).
Definition cont (f : R -> R) : Prop := forall x, continuous f x.

Lemma cont_ex (f : R -> R) a b : cont f -> ex_RInt f a b.
Proof. apply cont_int. Qed.
Lemma val_add o f g : obs_ok o -> cont f -> cont g -> obs_val o (fun x => f x + g x) = obs_val o f + obs_val o g.
Proof.
  intros Ho Cf Cg. destruct o as [x|h a b]; [reflexivity|]. destruct Ho as [_ Ch]. cbn [obs_val].
  rewrite <- (@RInt_plus R_CompleteNormedModule (fun t => h t * f t) (fun t => h t * g t)) by (apply cont_ex; intros x; now apply PsdIntegral.cmul).
  apply RInt_ext. intros. unfold plus. cbn. match goal with |- @eq _ ?a ?c => change (@eq R a c) end. ring.
Qed.
Lemma val_scal o c f : obs_ok o -> cont f -> obs_val o (fun x => c * f x) = c * obs_val o f.
Proof.
  intros Ho Cf. destruct o as [x|h a b]; [reflexivity|]. destruct Ho as [_ Ch]. cbn [obs_val].
  rewrite <- (@RInt_scal R_CompleteNormedModule (fun t => h t * f t)) by (apply cont_ex; intros x; now apply PsdIntegral.cmul).
  apply RInt_ext. intros. unfold scal. cbn. unfold mult. cbn. match goal with |- @eq _ ?a ?c => change (@eq R a c) end. ring.
Qed.
Lemma val_cont k o : cont2 k -> obs_ok o -> cont (fun x => obs_val o (k x)).
Proof.
  intros Hk Ho. destruct o as [y|h a b]; cbn [obs_val].
  - exact (cont2_left k y Hk).
  - destruct Ho as [Hab Ch]. refine (inner_cont (fun x t => h t * k x t) a b Hab _). apply cont2_mult; [now apply cont2_snd|exact Hk].
Qed.
Lemma cont_sum {A} (h : A -> R -> R) l : (forall a, In a l -> cont (h a)) -> cont (fun x => sumR (fun a => h a x) l).
Proof.
  induction l as [|a l IH]; intros H x.
  - apply (continuous_ext (fun _ => 0)); [reflexivity|apply continuous_const].
  - apply (continuous_ext (fun x => h a x + sumR (fun a => h a x) l)); [reflexivity|].
    apply (continuous_plus (h a) (fun x => sumR (fun a => h a x) l)); [apply H; now left|apply IH; intros; apply H; now right].
Qed.
Lemma cont_plus f g : cont f -> cont g -> cont (fun x => f x + g x).
Proof. intros Hf Hg x. apply (continuous_plus f g); [apply Hf|apply Hg]. Qed.
Lemma cont_const c : cont (fun _ => c).
Proof. intros x. apply continuous_const. Qed.
Lemma cont_scal c f : cont f -> cont (fun x => c * f x).
Proof. intros H x. apply PsdIntegral.cmul; [intros; apply continuous_const|apply H]. Qed.
Lemma ofun_cont k s : cont2 k -> odom s -> cont (fun x => ofun s (k x)).
Proof. intros Hk Hs. apply (cont_sum (fun p x => fst p * obs_val (snd p) (k x))). intros p Hp. apply cont_scal, val_cont; auto. Qed.
Lemma ofun_add s f g : odom s -> cont f -> cont g -> ofun s (fun x => f x + g x) = ofun s f + ofun s g.
Proof.
  intros Hs Cf Cg. unfold ofun. induction s as [|p s IH]; [unfold sumR; cbn; ring|]. rewrite !sumR_cons, IH by (intros q Hq; apply Hs; now right).
  rewrite val_add; [ring|apply Hs; now left|exact Cf|exact Cg].
Qed.
Lemma ofun_scal s c f : odom s -> cont f -> ofun s (fun x => c * f x) = c * ofun s f.
Proof.
  intros Hs Cf. unfold ofun. rewrite sumR_scal. apply sumR_ext. intros p Hp. rewrite val_scal; [ring|now apply Hs|exact Cf].
Qed.
Lemma ofun_sum {A} s (h : A -> R -> R) l : odom s -> (forall a, In a l -> cont (h a)) -> ofun s (fun x => sumR (fun a => h a x) l) = sumR (fun a => ofun s (h a)) l.
Proof.
  intros Hs. induction l as [|a l IH]; intros H.
  - change (fun x => sumR (fun a => h a x) []) with (fun x : R => 0). replace (fun _ : R => 0) with (fun x : R => 0 * 0) by (extensionality x; ring).
    rewrite ofun_scal; [|exact Hs|intros x; apply continuous_const]. change (sumR (fun a => ofun s (h a)) []) with 0. ring.
  - change (fun x => sumR (fun a => h a x) (a :: l)) with (fun x => h a x + sumR (fun a => h a x) l). rewrite ofun_add; [|exact Hs|apply H; now left|apply cont_sum; intros; apply H; now right].
    rewrite sumR_cons, IH; [reflexivity|]. intros; apply H; now right.
Qed.
Lemma ofun_two k s t : cont2 k -> odom s -> odom t -> ofun s (fun x => ofun t (k x)) = sumR (fun p => sumR (fun q => fst p * fst q * obs_cov k (snd p) (snd q)) t) s.
Proof.
  intros Hk Hs Ht. unfold ofun at 2. rewrite (ofun_sum s (fun q x => fst q * obs_val (snd q) (k x)) t Hs); [|intros q Hq; apply cont_scal, val_cont; auto].
  rewrite sumR_swap. apply sumR_ext. intros q Hq. rewrite ofun_scal; [|exact Hs|apply val_cont; auto]. unfold ofun. rewrite sumR_scal. apply sumR_ext. intros p _. unfold obs_cov. ring.
Qed.
Lemma ofun_sym k s t : cont2 k -> (forall x y, k x y = k y x) -> odom s -> odom t -> ofun s (fun x => ofun t (k x)) = ofun t (fun x => ofun s (k x)).
Proof.
  intros Hk Sk Hs Ht. rewrite !ofun_two by assumption. rewrite sumR_swap. apply sumR_ext. intros q Hq. apply sumR_ext. intros p Hp.
  rewrite (obs_sym k (snd p) (snd q)); [ring|exact Hk|exact Sk|now apply Hs|now apply Ht].
Qed.
Lemma obs_form k (s : oterms) : cont2 k -> psd_kernel (k : R -> R -> RF) -> odom s -> 0 <= form (obs_cov k) s.
Proof.
  intros Hk Pk Hs. assert (E : exists qs : list (R * {o : obs | obs_ok o}), s = map (fun p => (fst p, proj1_sig (snd p))) qs).
  { induction s as [|[c o] s IH]; [now exists []|]. destruct IH as [qs E]; [intros p Hp; apply Hs; now right|].
    exists ((c, exist obs_ok o (Hs (c, o) (or_introl eq_refl))) :: qs). cbn [map fst snd proj1_sig]. now rewrite <- E. }
  destruct E as [qs ->]. pose proof (obs_psd k Hk Pk qs) as P. unfold form. rewrite sumR_map.
  rewrite (sumR_ext _ (fun p => sumR (fun q => fst p * fst q * obs_cov k (proj1_sig (snd p)) (proj1_sig (snd q))) qs)); [exact P|].
  intros p _. now rewrite sumR_map.
Qed.
Lemma ofun_nonneg k s : cont2 k -> psd_kernel (k : R -> R -> RF) -> odom s -> 0 <= ofun s (fun x => ofun s (k x)).
Proof. intros Hk Pk Hs. rewrite ofun_two by assumption. now apply obs_form. Qed.

(** No variance: no covariance with anything. *)
Lemma onull k s t : cont2 k -> psd_kernel (k : R -> R -> RF) -> (forall x y, k x y = k y x) -> odom s -> odom t ->
  ofun s (fun x => ofun s (k x)) = 0 -> ofun s (fun x => ofun t (k x)) = 0.
Proof.
  intros Hk Pk Sk Hs Ht E. set (b := ofun s (fun x => ofun t (k x))). set (c := ofun t (fun x => ofun t (k x))).
  assert (G : forall a, 0 <= a * a * c + 2 * a * b).
  { intros a. set (u := map (fun p => (a * fst p, snd p)) t ++ s).
    assert (Hu : odom u). { intros p Hp. apply in_app_or in Hp as [Hp|Hp]; [|now apply Hs]. apply in_map_iff in Hp as (q & <- & Hq). now apply (Ht q). }
    assert (D : forall f, ofun u f = a * ofun t f + ofun s f).
    { intros f. unfold ofun, u. rewrite sumR_app, sumR_map. cbn [fst snd]. f_equal. rewrite sumR_scal. apply sumR_ext. intros. ring. }
    pose proof (ofun_nonneg k u Hk Pk Hu) as N. rewrite D in N.
    replace (fun x => ofun u (k x)) with (fun x => a * ofun t (k x) + ofun s (k x)) in N by (extensionality x; now rewrite D).
    rewrite !ofun_add in N by (assumption || (apply cont_scal, ofun_cont; assumption) || (apply ofun_cont; assumption)).
    rewrite !ofun_scal in N by (assumption || (apply ofun_cont; assumption)). fold b c in N. rewrite E in N. rewrite (ofun_sym k t s) in N by assumption. fold b in N. lra. }
  assert (Pc : 0 <= c) by now apply ofun_nonneg.
  destruct (Req_dec b 0) as [B|B]; [exact B|exfalso]. destruct (Req_dec c 0) as [A|A].
  - specialize (G (- b)). rewrite A in G. nra.
  - specialize (G (- b / c)). replace (- b / c * (- b / c) * c + 2 * (- b / c) * b) with (- (b * b / c)) in G by (field; exact A).
    assert (0 < b * b / c); [|lra]. apply Rmult_lt_0_compat; [nra|]. apply Rinv_0_lt_compat. lra.
Qed.
Lemma onull_section k s : cont2 k -> psd_kernel (k : R -> R -> RF) -> (forall x y, k x y = k y x) -> odom s ->
  ofun s (fun x => ofun s (k x)) = 0 -> forall z, ofun s (k z) = 0.
Proof.
  intros Hk Pk Sk Hs E z. pose proof (onull k s [(1, At z)] Hk Pk Sk Hs ltac:(intros p [<-|[]]; exact Logic.I) E) as H.
  rewrite <- H. f_equal. extensionality x. unfold ofun, sumR. cbn. rewrite Sk. ring.
Qed.

(** Observing a multiple of a function. *)
Definition oscl (c : R) (p : R * obs) : R * obs := match snd p with At x => (fst p * c, At x) | Int g a b => (fst p, Int (fun t => c * g t) a b) end.
Lemma ofun_oscl c s f : ofun s (fun x => c * f x) = ofun (map (oscl c) s) f.
Proof.
  unfold ofun. rewrite sumR_map. apply sumR_ext. intros (a & [x|g u v]) _; cbn [oscl fst snd obs_val].
  - ring.
  - f_equal. apply RInt_ext. intros t _. rr.
Qed.
