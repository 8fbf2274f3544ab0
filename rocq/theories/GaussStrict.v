(** A combination of derivatives at points that vanishes on all sections of a squared
    exponential kernel vanishes on all infinitely differentiable functions. *)
From Coq Require Import List Reals Lra Lia Bool Arith FunctionalExtensionality Permutation.
From Verif Require Import Base NdArray FunExprModel DiffopModel DiffopSpec DiffopProofs LfoModel LfoSpec LfoSmooth KernelModel KernelSpec KernelCalc KernelSmooth KernelSound
  KernelComm KernelProps ParamSpec TensorSpec TensorSchur PsdBase PsdDiff PsdSpec PsdProps PdeCondBase PdeCondSpec SmoothSym ExpIndep.
Import ListNotations.
Open Scope R_scope.

Section W.
Variable sh : shape.
Notation val := (valid_index sh).
(** Coefficient, iterated partial derivative, point. *)
Definition words := list (R * (list index * array)).
Definition wvalid (ws : words) : Prop := forall p, In p ws -> List.Forall val (fst (snd p)).
Definition wfun (phi : array -> R) (ws : words) (f : array -> R) : R := sumR (fun p => phi (snd (snd p)) * (fst p * iterD (fst (snd p)) f (snd (snd p)))) ws.
Definition pfun (phi : array -> R) (s : terms) (f : array -> R) : R := sumR (fun p => phi (snd (snd p)) * (fst p * ksem (fst (snd p)) f (snd (snd p)))) s.
Definition dwords (s : terms) : words := flat_map (fun p => map (fun e => (fst p * fst e, (snd e, snd (snd p)))) (expand (fst (snd p)))) s.
Lemma pfun_one s f : pfun (fun _ => 1) s f = dfun s f.
Proof. apply sumR_ext. intros p _. ring. Qed.
Lemma dwords_valid s : tdom sh s -> wvalid (dwords s).
Proof.
  intros T p Hp. apply in_flat_map in Hp as (q & Hq & Hp). apply in_map_iff in Hp as (e & <- & He). cbn [fst snd].
  exact (expand_valid sh _ (T q Hq) e He).
Qed.
Lemma dwords_sound phi s f : tdom sh s -> smooth sh f -> pfun phi s f = wfun phi (dwords s) f.
Proof.
  intros T S. unfold wfun, dwords. rewrite sumR_flat. apply sumR_ext. intros p Hp. rewrite (expand_sound sh _ (T p Hp) f S), sumR_map. cbn [fst snd].
  rewrite !sumR_scal. apply sumR_ext. intros e _. ring.
Qed.
(** ** Products *)
Fixpoint leib (w : list index) (q : array -> R) : list ((array -> R) * list index) :=
  match w with [] => [(q, [])] | i :: w => map (fun e => (fst e, i :: snd e)) (leib w q) ++ leib w (pd i q) end.
Lemma leib_valid w : List.Forall val w -> forall q e, In e (leib w q) -> List.Forall val (snd e).
Proof.
  induction w as [|i w IH]; intros V q e He.
  - destruct He as [<-|[]]. constructor.
  - inversion_clear V as [|? ? Vi Vw]. cbn [leib] in He. apply in_app_or in He as [He|He]; [|now apply (IH Vw (pd i q))].
    apply in_map_iff in He as (e' & <- & He). cbn [snd]. constructor; [exact Vi|now apply (IH Vw q)].
Qed.
Lemma iterD_plus w f g : List.Forall val w -> smooth sh f -> smooth sh g -> iterD w (fun x => f x + g x) = fun x => iterD w f x + iterD w g x.
Proof.
  intros V. revert f g. induction V as [|i w Vi V IH]; intros f g Sf Sg; [reflexivity|]. unfold iterD. cbn [fold_left].
  replace (pd i (fun x => f x + g x)) with (fun x => pd i f x + pd i g x) by (extensionality x; symmetry; now apply (pd_plus sh)).
  apply (IH (pd i f) (pd i g)); now apply smooth_pd.
Qed.
Lemma leib_sound w q g x : List.Forall val w -> c_infty sh q -> c_infty sh g ->
  iterD w (fun y => q y * g y) x = sumR (fun e => fst e x * iterD (snd e) g x) (leib w q).
Proof.
  intros V. revert q g. induction V as [|i w Vi V IH]; intros q g Cq Cg; [unfold sumR; cbn; ring|].
  unfold iterD. cbn [fold_left]. fold (iterD w (pd i (fun y => q y * g y))).
  replace (pd i (fun y => q y * g y)) with (fun y => q y * pd i g y + pd i q y * g y).
  2: { extensionality y. rewrite (pd_mult sh i q g y) by (apply Cq || apply Cg). ring. }
  rewrite iterD_plus; [|exact V|apply ci_mult; [exact Cq|now apply ci_pd]|apply ci_mult; [now apply ci_pd|exact Cg]].
  rewrite (IH q (pd i g)), (IH (pd i q) g) by (try assumption; now apply ci_pd). cbn [leib]. rewrite sumR_app, sumR_map. reflexivity.
Qed.
Definition lwords (q : array -> R) (ws : words) : words :=
  flat_map (fun p => map (fun e => (fst p * fst e (snd (snd p)), (snd e, snd (snd p)))) (leib (fst (snd p)) q)) ws.
Lemma lwords_valid q ws : wvalid ws -> wvalid (lwords q ws).
Proof.
  intros W p Hp. apply in_flat_map in Hp as (r & Hr & Hp). apply in_map_iff in Hp as (e & <- & He). cbn [fst snd].
  exact (leib_valid _ (W r Hr) q e He).
Qed.
Lemma lwords_sound phi q ws g : wvalid ws -> c_infty sh q -> c_infty sh g -> wfun phi ws (fun y => q y * g y) = wfun phi (lwords q ws) g.
Proof.
  intros W Cq Cg. unfold wfun, lwords. rewrite sumR_flat. apply sumR_ext. intros p Hp. rewrite (leib_sound _ _ _ _ (W p Hp) Cq Cg), sumR_map. cbn [fst snd].
  rewrite !sumR_scal. apply sumR_ext. intros e _. ring.
Qed.
(** ** Exponentials *)
Notation idec := (list_eq_dec Nat.eq_dec).
Notation cnt := (count_occ idec).
Lemma powers_step (z : array) i w J : ~ In i J -> forall c : R,
  fold_right (fun j a => z j ^ cnt (i :: w) j * a) c J = fold_right (fun j a => z j ^ cnt w j * a) c J.
Proof.
  intros N c. induction J as [|j J IH]; [reflexivity|]. cbn [fold_right]. rewrite IH by (intros H; apply N; now right).
  rewrite (count_occ_cons_neq idec w); [reflexivity|]. intros ->. apply N. now left.
Qed.
Lemma powers (z : array) J w : NoDup J -> (forall i, In i w -> In i J) ->
  fold_right (fun i a => z i * a) 1 w = fold_right (fun i a => z i ^ cnt w i * a) 1 J.
Proof.
  intros N. induction w as [|i w IH]; intros H.
  - clear. cbn. induction J as [|j J IH]; [reflexivity|]. cbn. rewrite <- IH. ring.
  - cbn [fold_right]. rewrite IH by (intros j Hj; apply H; now right). assert (Hi : In i J) by (apply H; now left). clear IH H.
    induction N as [|j J Nj N IH]; [destruct Hi|]. cbn [fold_right]. destruct Hi as [->|Hi].
    + rewrite (count_occ_cons_eq idec w eq_refl), powers_step by exact Nj. cbn [pow]. ring.
    + rewrite (count_occ_cons_neq idec w) by congruence. rewrite <- (IH Hi). ring.
Qed.
Lemma mprod_split {T} (n : T -> index -> nat) (a : T -> index -> R) J x z :
  mprod n a J x z = fold_right (fun i b => z i ^ n x i * b) 1 J * exp (total (map (fun i => z i * a x i) J)).
Proof.
  induction J as [|i J IH]; [cbn; rewrite exp_0; ring|]. cbn [mprod fold_right map]. rewrite IH. unfold total. cbn [fold_right]. rewrite exp_plus.
  rewrite (Rmult_comm (a x i)). ring.
Qed.
Lemma words_indep ws : wvalid ws -> (forall z, wfun (fun _ => 1) ws (lexp sh z) = 0) ->
  forall phi g, (forall x y, agree sh x y -> phi x = phi y) -> c_infty sh g -> wfun phi ws g = 0.
Proof.
  intros W Z phi g P C.
  pose proof (several_indep idec (fun (p : R * (list index * array)) i => cnt (fst (snd p)) i) (fun p i => snd (snd p) i) (all_indices sh) (all_nodup sh)
    (fun p => fst p) ws (fun p => phi (snd (snd p)) * iterD (fst (snd p)) g (snd (snd p)))) as I.
  unfold wfun. rewrite (sumR_ext _ (fun p => fst p * (phi (snd (snd p)) * iterD (fst (snd p)) g (snd (snd p))))) by (intros; ring). apply I.
  - intros z. rewrite <- (Z z). unfold wfun. apply sumR_ext. intros p Hp. rewrite lexp_iter by now apply W. rewrite mprod_split. unfold lexp.
    rewrite (powers z (all_indices sh)); [ring|apply all_nodup|]. intros i Hi. apply all_indices_spec. exact (proj1 (List.Forall_forall _ _) (W p Hp) i Hi).
  - intros p q Hp Hq E. assert (A : agree sh (snd (snd p)) (snd (snd q))) by (intros i Vi; apply E; now apply all_indices_spec).
    assert (Pm : Permutation (fst (snd p)) (fst (snd q))).
    { apply (Permutation_count_occ idec). intros i. destruct (in_dec idec i (all_indices sh)) as [Hi|Hi]; [now apply E|].
      assert (O : forall p, In p ws -> cnt (fst (snd p)) i = 0%nat).
      { intros r Hr. apply count_occ_not_In. intros Hi'. apply Hi. apply all_indices_spec. exact (proj1 (List.Forall_forall _ _) (W r Hr) i Hi'). }
      now rewrite !O. }
    rewrite (P _ _ A). f_equal. rewrite (iterD_perm sh g _ _ C (W p Hp) Pm).
    apply (smooth_agree sh); [|exact A]. apply smooth_iterD; [apply C|now apply W].
Qed.
(** ** Gaussians *)
Lemma expquad_split l z x : (forall i, val i -> l i <> 0) ->
  expquad_fun sh l (fun i => z i * l i ^ 2) x = gsq sh (fun i => - (z i * l i) ^ 2) (fun _ => 1) * (gsq sh (fun i => - / l i ^ 2) x * lexp sh z x).
Proof.
  intros L. unfold expquad_fun, gsq, lexp. rewrite <- !exp_plus. f_equal. rewrite <- !total_mult, <- !total_plus. apply total_ext.
  intros i Hi. apply all_indices_spec in Hi. specialize (L i Hi). field. exact L.
Qed.
Lemma gauss_universal l s : (forall i, val i -> l i <> 0) -> tdom sh s -> (forall z, dfun s (expquad_fun sh l z) = 0) ->
  forall phi f, (forall x y, agree sh x y -> phi x = phi y) -> c_infty sh f -> pfun phi s f = 0.
Proof.
  intros L T Z phi f P C. set (q := gsq sh (fun i => - / l i ^ 2)). set (q' := gsq sh (fun i => - - / l i ^ 2)).
  assert (Cq : c_infty sh q) by apply ci_gsq. assert (Cf : c_infty sh (fun x => q' x * f x)) by (apply ci_mult; [apply ci_gsq|exact C]).
  pose proof (dwords_valid s T) as W.
  replace f with (fun x => q x * (q' x * f x)).
  2: { extensionality x. pose proof (gsq_inv sh (fun i => - / l i ^ 2) x) as E. change (q x * q' x = 1) in E. rewrite <- Rmult_assoc, E. ring. }
  rewrite dwords_sound; [|exact T|apply ci_mult; assumption]. rewrite lwords_sound by assumption.
  apply words_indep; [now apply lwords_valid| |exact P|exact Cf].
  intros z. rewrite <- lwords_sound; [|exact W|exact Cq|apply ci_lexp]. rewrite <- dwords_sound; [|exact T|apply ci_mult; [exact Cq|apply ci_lexp]]. rewrite pfun_one.
  specialize (Z (fun i => z i * l i ^ 2)).
  replace (expquad_fun sh l (fun i => z i * l i ^ 2)) with (fun x => gsq sh (fun i => - (z i * l i) ^ 2) (fun _ => 1) * (q x * lexp sh z x)) in Z
    by (extensionality x; symmetry; now apply expquad_split).
  rewrite (dfun_scal sh) in Z; [|exact T|apply ci_mult; [exact Cq|apply ci_lexp]].
  apply Rmult_integral in Z as [Z|Z]; [|exact Z]. exfalso. unfold gsq in Z. pose proof (exp_pos (/ 2 * total (map (fun i => - (z i * l i) ^ 2 * 1 ^ 2) (all_indices sh)))). lra.
Qed.
End W.

(** No variance means vanishing on all sections. *)
Lemma null_sections sh k s : kclass sh k -> psd_kernel (k : array -> array -> RF) -> (forall x y, k x y = k y x) -> tdom sh s ->
  dfun s (fun x => dfun s (k x)) = 0 -> forall z, dfun s (k z) = 0.
Proof.
  intros K P Sy T E z. set (b := dfun s (k z)).
  assert (G : forall t, 0 <= t * t * k z z + 2 * t * b).
  { intros t. set (u := (t, (OId [] [], z)) :: s). assert (Tu : tdom sh u) by (intros p [<-|Hp]; [exact Logic.I|now apply T]).
    pose proof (dfun_nonneg sh k K u P Tu) as N.
    assert (D : forall f, dfun u f = t * f z + dfun s f) by (intros f; unfold dfun, u; now rewrite sumR_cons).
    assert (Q : dfun u (fun x => dfun u (k x)) = t * t * k z z + 2 * t * b).
    { rewrite D. rewrite D.
      replace (fun x => dfun u (k x)) with (fun x => t * k x z + dfun s (k x)) by (extensionality x; now rewrite D).
      rewrite (dfun_add sh s (fun x => t * k x z)); [|exact T|apply smooth_scal; exact (proj1 (class_smooth sh k K) z)|now apply dfun_section].
      rewrite (dfun_scal sh s t (fun x => k x z)); [|exact T|exact (proj1 (class_smooth sh k K) z)]. rewrite E.
      replace (fun x => k x z) with (k z) by (extensionality x; apply Sy). fold b. ring. }
    lra. }
  assert (Kz : 0 <= k z z) by exact (psd_diag k z P).
  destruct (Req_dec b 0) as [B|B]; [exact B|exfalso].
  destruct (Req_dec (k z z) 0) as [A|A].
  - specialize (G (- b)). rewrite A in G. nra.
  - specialize (G (- b / k z z)). replace (- b / k z z * (- b / k z z) * k z z + 2 * (- b / k z z) * b) with (- (b * b / k z z)) in G by (field; exact A).
    assert (0 < b * b / k z z); [|lra]. apply Rmult_lt_0_compat; [nra|]. apply Rinv_0_lt_compat. lra.
Qed.

Lemma kstrict_pos sh e : kstrict sh e -> kpos sh e.
Proof.
  induction 1 as [e E L|s e Hs He IH|e e' He IH He'|e e' He He' IH].
  - now constructor.
  - constructor; [lra|exact IH].
  - now constructor.
  - now constructor.
Qed.
Lemma dfun_kadd sh s k k' : tdom sh s -> kclass sh k -> kclass sh k' ->
  dfun s (fun x => dfun s (fun y => k x y + k' x y)) = dfun s (fun x => dfun s (k x)) + dfun s (fun x => dfun s (k' x)).
Proof.
  intros T K K'. rewrite <- (dfun_add sh s) by (try exact T; now apply dfun_section). f_equal. extensionality x.
  apply (dfun_add sh s (k x) (k' x) T); [exact (proj2 (class_smooth sh k K) x)|exact (proj2 (class_smooth sh k' K') x)].
Qed.
Lemma kstrict_universal sh e s : kstrict sh e -> tdom sh s -> dfun s (fun x => dfun s (kmean e x)) = 0 ->
  forall phi f, (forall x y, agree sh x y -> phi x = phi y) -> c_infty sh f -> pfun phi s f = 0.
Proof.
  intros H T. assert (N : forall e, kpos sh e -> 0 <= dfun s (fun x => dfun s (kmean e x))).
  { intros e' He. apply (dfun_nonneg sh); [apply (kpos_class sh e' He)|apply (kpos_psd sh e' He)|exact T]. }
  induction H as [e E L|c e Hc He IH|e e' He IH He'|e e' He He' IH]; intros Z.
  - pose proof (kstrict_pos sh _ (kstrict_exp sh e E L)) as P. intros phi f. subst sh. apply (gauss_universal (eq_shape e) (eq_len e)); [exact L|exact T|].
    exact (null_sections _ _ s (proj1 (kpos_class _ _ P)) (kpos_psd _ _ P) (kpos_sym _ _ P) T Z).
  - apply IH. pose proof (kpos_class sh e (kstrict_pos sh e He)) as [K _]. cbn [kmean] in Z.
    replace (fun x => dfun s (fun x1 => c * kmean e x x1)) with (fun x => c * dfun s (kmean e x)) in Z.
    2: { extensionality x. symmetry. apply (dfun_scal sh s c (kmean e x) T). exact (proj2 (class_smooth sh _ K) x). }
    rewrite (dfun_scal sh s c _ T) in Z by now apply dfun_section. apply Rmult_integral in Z as [Z|Z]; [lra|exact Z].
  - apply IH. pose proof (kstrict_pos sh e He) as P. cbn [kmean] in Z.
    rewrite (dfun_kadd sh s (kmean e) (kmean e') T (proj1 (kpos_class sh e P)) (proj1 (kpos_class sh e' He'))) in Z.
    pose proof (N e P). pose proof (N e' He'). lra.
  - apply IH. pose proof (kstrict_pos sh e' He') as P. cbn [kmean] in Z.
    rewrite (dfun_kadd sh s (kmean e) (kmean e') T (proj1 (kpos_class sh e He)) (proj1 (kpos_class sh e' P))) in Z.
    pose proof (N e He). pose proof (N e' P). lra.
Qed.
