(** Lemmas about linear transforms of random processes. *)
From Coq Require Import List Reals Lra Lia Bool Arith FunctionalExtensionality.
From Coquelicot Require Import Coquelicot.
From Verif Require Import Base NdArray NdData BlockModel BlockProofs CovModel CovSpec CovProofs CrossModel CrossSpec CrossProofs CrossViews CrossKern CrossFun CrossOps
  PolyClassModel FunExprModel FunExprProofs DiffopModel LfoModel LfoSpec LfoSmooth LfoProofs LfoSound LfoAlg KernelSpec KernelSmooth KernelComm FunctlModel FunctlSpec FunctlProofs RandProcModel RandProcSpec.
From Verif Require CrossProps.
Import ListNotations.
Open Scope R_scope.

(** ** Linear combinations *)
Lemma weigh_cons {A} (x : R * A) s w : weigh (x :: s) w = fst x * w (snd x) + weigh s w.
Proof. reflexivity. Qed.
Lemma weigh_nil {A} (w : A -> R) : weigh [] w = 0.
Proof. reflexivity. Qed.
Lemma total_cons x l : total (x :: l) = x + total l.
Proof. reflexivity. Qed.
Lemma weigh_app {A} (s t : list (R * A)) w : weigh (s ++ t) w = weigh s w + weigh t w.
Proof. induction s as [|x s IH]; cbn [app]; [rewrite weigh_nil; ring|]. rewrite !weigh_cons, IH. ring. Qed.
Lemma weigh_scale {A B} (c : R) (g : A -> B) (s : list (R * A)) w :
  weigh (map (fun t => (c * fst t, g (snd t))) s) w = c * weigh s (fun a => w (g a)).
Proof. induction s as [|x s IH]; cbn [map]; [rewrite !weigh_nil; ring|]. rewrite !weigh_cons, IH. cbn [fst snd]. ring. Qed.
Lemma weigh_map {A B} (g : A -> B) (s : list (R * A)) w : weigh (map (fun t => (fst t, g (snd t))) s) w = weigh s (fun a => w (g a)).
Proof. unfold weigh. rewrite map_map. reflexivity. Qed.
Lemma weigh_flat {A B} (g : B -> list (R * A)) l w : weigh (flat_map g l) w = total (map (fun b => weigh (g b) w) l).
Proof. induction l as [|b l IH]; [reflexivity|]. cbn [flat_map map]. now rewrite weigh_app, IH. Qed.
Lemma weigh_ext {A} (s : list (R * A)) w w' : (forall c a, In (c, a) s -> w a = w' a) -> weigh s w = weigh s w'.
Proof. intros H. unfold weigh. f_equal. apply map_ext_in. intros [c a] Hc. cbn. now rewrite (H c a Hc). Qed.
Lemma weigh_add {A} (s : list (R * A)) w u : weigh s (fun a => w a + u a) = weigh s w + weigh s u.
Proof. induction s as [|x s IH]; [rewrite !weigh_nil; ring|]. rewrite !weigh_cons, IH. ring. Qed.
Lemma weigh_scal {A} (c : R) (s : list (R * A)) w : weigh s (fun a => c * w a) = c * weigh s w.
Proof. induction s as [|x s IH]; [rewrite !weigh_nil; ring|]. rewrite !weigh_cons, IH. ring. Qed.
Lemma weigh_total {A B} (s : list (R * A)) (l : list B) (w : B -> A -> R) :
  weigh s (fun a => total (map (fun b => w b a) l)) = total (map (fun b => weigh s (w b)) l).
Proof.
  induction l as [|b l IH]; cbn [map].
  - induction s as [|x s IH]; [reflexivity|]. rewrite weigh_cons, IH. cbn. ring.
  - rewrite total_cons, <- IH, <- weigh_add. reflexivity.
Qed.
Lemma weigh1 {A} (a : A) w : weigh [(1, a)] w = w a.
Proof. rewrite weigh_cons, weigh_nil. cbn [fst snd]. ring. Qed.

(** ** Cross-covariances of scalar processes *)
Fixpoint noe (p : pvcc RF) : bool :=
  match p with
  | PLeaf _ _ _ _ _ => true
  | PScaled _ q | PLinOp _ q => noe q
  | PSum l => forallb noe l
  | _ => false
  end.
Notation terms := (list (R * (array -> R))).
Inductive good (dom : shape) : pvcc RF -> shape -> (index -> terms) -> Prop :=
| g_leaf rv v : good dom (PLeaf dom [] rv false v) rv (fun r => [(1, fun x => v x [] r)])
| g_eval e v : ev_dom e = dom -> ev_cod e = [] -> nshape (ev_X e) = ev_batch e ++ dom ->
    good dom (PEval (KLeaf dom [] [] v) e false) (ev_out e) (fun r => [(1, fun x => v x (pt (ev_X e) r) [] [])])
| g_scaled s p rv E : good dom p rv E -> good dom (PScaled (s : RF) p) rv (fun r => map (fun t => (s * fst t, snd t)) (E r))
| g_sum p q rv E G : good dom p rv E -> good dom q rv G -> good dom (PSum [p; q]) rv (fun r => E r ++ G r)
| g_lin A p E : good dom p [ncols A] E -> noe p = true ->
    good dom (PLinOp A p) [nrows A] (fun r => flat_map (fun k => map (fun t => (entry A (hd 0%nat r) k * fst t, snd t)) (E [k])) (seq 0 (ncols A)))
| g_ext p rv E G : good dom p rv E -> (forall r, valid_index rv r -> E r = G r) -> good dom p rv G.

Section Good.
Variable dom : shape.
Lemma good_shape p rv E : good dom p rv E -> p_in p = dom /\ p_out p = [] /\ p_rv p = rv /\ p_rev p = false.
Proof. induction 1; cbn; auto; intuition. Qed.
Lemma good_sum p q rv E G : good dom p rv E -> good dom q rv G -> CrossModel.mk_sum [p; q] = Ok (PSum [p; q]).
Proof.
  intros H1 H2. apply good_shape in H1 as (A1 & A2 & A3 & A4). apply good_shape in H2 as (B1 & B2 & B3 & B4).
  unfold CrossModel.mk_sum. cbn [forallb]. now rewrite A1, A2, A3, A4, B1, B2, B3, B4, !shape_eqb_refl.
Qed.
Lemma good_lin A p E : good dom p [ncols A] E -> mk_plinop A p = Ok (PLinOp A p).
Proof. intros H. apply good_shape in H as (_ & _ & A3 & _). unfold mk_plinop. rewrite A3. cbn [length Nat.eqb]. now rewrite shape_eqb_refl. Qed.
Lemma good_own p rv E x : good dom p rv E -> noe p = true -> p_own_linop p x = Err NotImplementedError.
Proof.
  induction 1; cbn [noe p_own_linop]; intros N; auto; try discriminate.
  - now rewrite IHgood.
  - cbn [forallb] in N. apply andb_prop in N as [N _]. cbn [mapR]. now rewrite IHgood1.
  - now rewrite IHgood.
Qed.
Lemma ev_idx e r : ev_cod e = [] -> valid_index (ev_out e) r -> @ev_point RF e r = r /\ ev_output e r = [] /\ valid_index (ev_batch e) r.
Proof.
  intros C H. destruct (plain_out e r (or_intror (or_introl C)) H) as (_ & s & q & Hs & Hq & Es & Eq & Er).
  rewrite C in Hq. assert (Q : q = []) by now inversion Hq. rewrite Q in Er. cbn [app] in Er. rewrite Es, Eq, Q, Er. auto.
Qed.
Lemma ev_mk e : ev_cod e = [] -> ev_dom e = dom -> nshape (ev_X e) = ev_batch e ++ dom -> @mk_evalf RF (ev_dirac e) dom [] (ev_X e) = Ok e.
Proof.
  intros C D S. unfold mk_evalf. rewrite <- D. fold (ev_batch e). rewrite S, D at 1. rewrite shape_eqb_refl. destruct e. cbn in *. now subst.
Qed.
Lemma ev_out_nil e : @ev_cod RF e = [] -> ev_out e = ev_batch e.
Proof. intros C. unfold ev_out. rewrite C. destruct (ev_dirac e); [apply app_nil_r|reflexivity]. Qed.

Lemma sum2_shows (p q s : pvcc RF) x b (g h : index -> index -> index -> R) : CrossModel.mk_sum [p; q] = Ok s -> pv_shows p x b g -> pv_shows q x b h ->
  pv_shows s x b (fun i o r => g i o r + h i o r : RF).
Proof.
  intros M Hp Hq. eapply CrossProps.pv_shows_ext.
  - apply (sum_shows RF_laws [p; q] s x b [g; h] M). constructor; [exact Hp|constructor; [exact Hq|constructor]].
  - intros i o r _ _ _. unfold sum_values, fsum. cbn. ring.
Qed.
Lemma lf_sum2 (L : lfun RF) (p q s : pvcc RF) (g h : index -> index -> R) : CrossModel.mk_sum [p; q] = Ok s -> lf_shows L p g -> lf_shows L q h ->
  lf_shows L s (fun i r => g i r + h i r : RF).
Proof.
  intros M Hp Hq. assert (H : lf_shows L s (fun i r => fsum (map (fun h : index -> index -> RF => h i r) [g; h]))).
  { apply (lf_sum RF_laws L [p; q] s [g; h] M). constructor; [exact Hp|constructor; [exact Hq|constructor]]. }
  destruct H as [c [Ec Hc]]. exists c. split; [exact Ec|]. unfold functl_cov in *.
  destruct (p_rev s); eapply shows_ext; try exact Hc; intros i j _ _; unfold fsum; cbn; ring.
Qed.
Lemma good_shows p rv E x b : good dom p rv E -> nshape x = b ++ dom ->
  pv_shows p x b (fun i o r => weigh (E r) (fun h => h (pt x i)) : RF).
Proof.
  intros G Ex. induction G as [rv v|e v D C S|s p rv E G IH|p q rv E E' G1 IH1 G2 IH2|A p E G IH N|p rv E E' G IH HE].
  - eapply CrossProps.pv_shows_ext; [apply leaf_shows; exact Ex|]. intros i o r _ Ho _. cbn [p_out] in Ho. inversion Ho; subst. cbn beta. now rewrite weigh1.
  - assert (HS : pv_shows (PEval (KLeaf dom [] [] v) e false) x b (eval1_value v e x)).
    { apply eval1_shows; [|intros x0 x1; apply leaf_linop|now apply ev_mk|now right; left|exact Ex].
      intros x0 x1 b0 b1 b' Hp Hb. apply (leaf_call dom [] [] v x0 x1 b0 b1 b' Hp Hb). }
    eapply CrossProps.pv_shows_ext; [exact HS|]. intros i o r _ Ho Hr. cbn [p_out p_rv k_out0] in Ho, Hr. inversion Ho; subst.
    destruct (ev_idx e r C Hr) as (E1 & E2 & _). unfold eval1_value. rewrite E1, E2. now rewrite weigh1.
  - eapply CrossProps.pv_shows_ext; [apply scaled_shows; exact IH|]. intros i o r _ _ _. cbn beta. symmetry. apply (weigh_scale s (fun h => h) (E r) (fun h => h (pt x i))).
  - eapply CrossProps.pv_shows_ext; [apply (sum2_shows _ _ _ _ _ _ _ (good_sum _ _ _ _ _ G1 G2) IH1 IH2)|].
    intros i o r _ _ _. cbn beta. now rewrite weigh_app.
  - eapply CrossProps.pv_shows_ext; [apply (plinop_shows A p _ x b _ (good_lin A p E G) IH); right; exact (good_own p _ E x G N)|].
    intros i o r _ _ Hr. cbn [p_rv] in Hr. apply valid1_inv in Hr as (k & -> & _). unfold lin_value. rewrite weigh_flat. cbn [hd nth].
    unfold fsum, total. f_equal. apply map_ext. intros j. symmetry. apply (weigh_scale _ (fun h => h) (E [j]) (fun h => h (pt x i))).
  - eapply CrossProps.pv_shows_ext; [exact IH|]. intros i o r _ _ Hr. destruct (good_shape _ _ _ G) as (_ & _ & R & _). rewrite R in Hr. now rewrite HE.
Qed.

Lemma lf_shows_ext L p rv E (h h' : index -> index -> RF) : good dom p rv E -> lf_shows L p h ->
  (forall s r, valid_index (lf_out L) s -> valid_index rv r -> h s r = h' s r) -> lf_shows L p h'.
Proof.
  intros G [c [Ec Hc]] X. exists c. split; [exact Ec|]. destruct (good_shape _ _ _ G) as (_ & _ & R & V). unfold functl_cov in *. rewrite V in *. rewrite R in *.
  eapply shows_ext; [exact Hc|exact X].
Qed.
Lemma good_lf (L : lfun RF) p rv E : lf_dom L = dom -> lf_cod L = [] ->
  (forall f g, (forall x : array, f x [] = g x [] :> R) -> forall s, valid_index (lf_out L) s -> lf_act L f s = lf_act L g s) ->
  good dom p rv E -> lf_shows L p (fun s r => weigh (E r) (fun h => lf_act L (fun y _ => h y) s) : RF).
Proof.
  intros D C X G. induction G as [rv v|e v De Ce S|s p rv E G IH|p q rv E E' G1 IH1 G2 IH2|A p E G IH N|p rv E E' G IH HE].
  - eapply lf_shows_ext; [apply g_leaf|apply lf_leaf|]. intros s r Hs Hr. cbn beta. rewrite weigh1. now apply X.
  - eapply lf_shows_ext; [now apply g_eval|apply (lf_eval1 L dom [] [] v e D C); [now apply ev_mk|now right; left]|].
    intros s r Hs Hr. cbn beta. rewrite weigh1. destruct (ev_idx e r Ce Hr) as (E1 & E2 & _). rewrite E1, E2. now apply X.
  - eapply lf_shows_ext; [apply g_scaled, G|apply lf_scaled; exact IH|]. intros t r _ _. symmetry.
    apply (weigh_scale s (fun h => h) (E r) (fun h => lf_act L (fun y _ => h y) t)).
  - eapply lf_shows_ext; [apply (g_sum dom _ _ _ _ _ G1 G2)|apply (lf_sum2 _ _ _ _ _ _ (good_sum _ _ _ _ _ G1 G2) IH1 IH2)|].
    intros s r _ _. cbn beta. now rewrite weigh_app.
  - eapply lf_shows_ext; [apply (g_lin dom A p E G N)|apply (lf_linop L A p _ _ (good_lin A p E G) IH)|].
    intros s r _ Hr. apply valid1_inv in Hr as (k & -> & _). rewrite weigh_flat. cbn [hd nth].
    unfold fsum, total. f_equal. apply map_ext. intros j. symmetry. apply (weigh_scale _ (fun h => h) (E [j]) (fun h => lf_act L (fun y _ => h y) s)).
  - eapply lf_shows_ext; [exact G|exact IH|]. intros s r _ Hr. cbn beta. now rewrite HE.
Qed.
Lemma good_ev (e : evalf RF) p rv E : ev_dom e = dom -> ev_cod e = [] -> nshape (ev_X e) = ev_batch e ++ dom -> good dom p rv E ->
  exists c, f_pv (FEval e) p = Ok c /\ shows c (ev_out e) rv (fun s r => weigh (E r) (fun h => h (pt (ev_X e) s)) : RF).
Proof.
  intros D C S G. destruct (good_shape _ _ _ G) as (_ & O & R & V).
  destruct (functl_eval e p (ev_X e) (ev_batch e) _ (good_shows p rv E (ev_X e) (ev_batch e) G S) eq_refl (or_intror (or_introl C)) eq_refl) as [c [Ec Hc]]; [now rewrite O|].
  exists c. split; [exact Ec|]. unfold functl_cov in Hc. rewrite V, R in Hc. eapply shows_ext; [exact Hc|]. intros s r Hs _. cbn beta.
  now destruct (ev_idx e s C Hs) as (-> & _ & _).
Qed.
End Good.


(** ** Operators *)
Lemma scalar_op P dom : wfo P -> o_in P = (dom, []) -> o_out P = (dom, []).
Proof.
  induction 1 as [d c|d Hd|s L W IH|L Ls HW IH HE|L W IH|L M Ls W IH W' IH' HE]; cbn [o_in o_out]; intros E; auto.
  - apply (IH L (or_introl eq_refl) E).
  - apply IH. rewrite HE. apply (IH' E).
Qed.
Definition osemS (P : lfo) (h : array -> R) : array -> R := fun x => osem P (fun y _ => h y) x [].
Lemma osemS_eq P dom (F : array -> array) : wfo P -> o_in P = (dom, []) -> (fun x => osem P F x []) = osemS P (fun y => F y []).
Proof.
  intros W E. extensionality x. unfold osemS. apply osem_ext; [exact W| |rewrite (scalar_op P dom W E); constructor].
  intros y k Hk. rewrite E in Hk. now inversion Hk.
Qed.
Fixpoint evp (p : pvcc RF) : bool :=
  match p with
  | PEval _ _ _ => true
  | PScaled _ q => evp q
  | PSum l => forallb evp l
  | _ => false
  end.
Notation kern := (point RF -> point RF -> index -> index -> RF).
Section Ops.
Variables (dom : shape) (P : lfo).
Hypotheses (W : wfo P) (Ei : o_in P = (dom, [])).
Let Eo := scalar_op P dom W Ei.
Lemma op_kern (v : kern) (n : nat) : n = 0%nat \/ n = 1%nat -> lo_kern (lop_of P) (KLeaf dom [] [] v) n =
  Ok (KLeaf dom [] [] (if (n =? 0)%nat then fun x y o q => osem P (fun z r => v z y r q) x o else fun x y o q => osem P (fun z r => v x z o r) y q)).
Proof.
  intros Hn. assert (Eo := Eo). cbn [lo_kern]. unfold validate, lop_of. cbn [lo_dom lo_cod lo_out_dom lo_out_cod lo_act k_in k_out0 k_out1]. rewrite Ei, Eo. cbn [fst snd].
  destruct Hn as [-> | ->]; cbn [Nat.eqb orb negb]; now rewrite !shape_eqb_refl.
Qed.
Lemma good_op p rv E : good dom p rv E -> forall q, lo_pv (lop_of P) p = Ok q ->
  good dom q rv (fun r => map (fun t => (fst t, osemS P (snd t))) (E r)).
Proof.
  induction 1 as [rv v|e v De Ce S|s p rv E G IH|p q rv E E' G1 IH1 G2 IH2|A p E G IH N|p rv E E' G IH HE]; intros q' H; cbn [lo_pv] in H; try discriminate.
  - rewrite (op_kern v 0 (or_introl eq_refl)) in H. cbn [bind Nat.eqb] in H. injection H as <-. eapply g_ext; [now apply g_eval|].
    intros r Hr. cbn [map fst snd]. f_equal. f_equal. apply (osemS_eq P dom (fun z k => v z (pt (ev_X e) r) k []) W Ei).
  - destruct (lo_pv (lop_of P) p) as [u|] eqn:Eu; [|discriminate]. injection H as <-. eapply g_ext; [apply g_scaled, (IH u eq_refl)|].
    intros r _. cbn beta. rewrite !map_map. reflexivity.
  - cbn [mapR] in H. destruct (lo_pv (lop_of P) p) as [u|] eqn:Eu; [|discriminate]. cbn [bind] in H. destruct (lo_pv (lop_of P) q) as [w|] eqn:Ew; [|discriminate]. cbn [bind] in H.
    rewrite (good_sum dom u w _ _ _ (IH1 u eq_refl) (IH2 w eq_refl)) in H. injection H as <-. eapply g_ext; [apply (g_sum dom _ _ _ _ _ (IH1 u eq_refl) (IH2 w eq_refl))|].
    intros r _. cbn beta. now rewrite map_app.
  - eapply g_ext; [apply (IH q' H)|]. intros r Hr. cbn beta. now rewrite HE.
Qed.
Lemma good_op_total p rv E : good dom p rv E -> evp p = true -> exists q, lo_pv (lop_of P) p = Ok q /\ evp q = true.
Proof.
  induction 1 as [rv v|e v De Ce S|s p rv E G IH|p q rv E E' G1 IH1 G2 IH2|A p E G IH N|p rv E E' G IH HE]; cbn [evp lo_pv]; intros HV; try discriminate; auto.
  - rewrite (op_kern v 0 (or_introl eq_refl)). cbn [bind]. eexists. split; reflexivity.
  - destruct (IH HV) as [u [-> Hu]]. cbn [bind]. eexists. split; [reflexivity|exact Hu].
  - cbn [forallb] in HV. apply andb_prop in HV as [H1 H2]. apply andb_prop in H2 as [H2 _]. destruct (IH1 H1) as [u [Eu Hu]], (IH2 H2) as [w [Ew Hw]].
    cbn [mapR]. rewrite Eu, Ew. cbn [bind]. rewrite (good_sum dom u w _ _ _ (good_op _ _ _ G1 _ Eu) (good_op _ _ _ G2 _ Ew)).
    eexists. split; [reflexivity|]. cbn [evp forallb]. now rewrite Hu, Hw.
Qed.
End Ops.

Lemma wfo_opdom P dom : wfo P -> o_in P = (dom, []) -> opdom dom P.
Proof.
  induction 1 as [d c|d Hd|s L W IH|L Ls HW IH HE|L W IH|L M Ls W IH W' IH' HE]; cbn [o_in opdom]; intros E; auto.
  - now injection E.
  - revert HW IH HE. generalize (L :: Ls) as Ns. intros Ns HW IH HE. assert (HI : forall M, In M Ns -> o_in M = (dom, [])) by (intros M HM; now rewrite (proj1 (HE M HM))).
    clear HW HE E. induction Ns as [|N Ns IHN]; cbn [fold_right]; auto. split; [apply IH; [now left|]; apply HI; now left|]. apply IHN; intros M HM; [apply IH|apply HI]; now right.
  - cbn [fold_right]. split; [now apply IH|exact I].
  - change (opdom dom L /\ opdom dom (OComp (M :: Ls))). split; [|now apply IH']. apply IH. rewrite HE. exact (scalar_op (OComp (M :: Ls)) dom W' E).
Qed.

(** ** What operators make of cross-covariances *)
Definition npv (r : result opout) : Prop := forall q, r <> Ok (OutPv q).
Definition isnt (v : opout) : Prop := npv (Ok v).
Lemma npv_err e : npv (Err e).
Proof. now intros q. Qed.
Lemma npv_none : npv (Ok OutNone).
Proof. now intros q. Qed.
Lemma npv_fun : npv (Ok OutFun).
Proof. now intros q. Qed.
#[local] Hint Resolve npv_err npv_none npv_fun : core.
Lemma npv_bind {A} (r : result A) f : (forall a, r = Ok a -> npv (f a)) -> npv (bind r f).
Proof. destruct r as [a|e]; cbn; auto. Qed.
Lemma npv_else r a : npv r -> (r = Err NotImplementedError -> npv a) -> npv (or_else r a).
Proof. intros H1 H2. destruct r as [v|[]]; cbn; auto. Qed.
Lemma npv_or r : npv r \/ exists p, r = Ok (OutPv p).
Proof. destruct r as [[p| |]|e]; eauto. Qed.
Lemma npv_scale s v : isnt v -> npv (out_scale s v).
Proof. destruct v as [p| |]; intros H; cbn; auto. now destruct (H p). Qed.
Lemma npv_add_l v w : isnt v -> npv (out_add v w).
Proof. destruct v as [p| |]; intros H; [now destruct (H p)| |]; destruct w; cbn; auto. Qed.
Lemma npv_fold f (Ms : list lfo) : forall r, npv r -> npv (fold_left (fun acc M => bind acc (fun a => bind (f M) (out_add a))) Ms r).
Proof.
  induction Ms as [|M Ms IH]; intros r H; [exact H|]. cbn [fold_left]. apply IH. apply npv_bind. intros v ->. apply npv_bind. intros w _. apply npv_add_l. exact H.
Qed.
Lemma npv_id dom cod v : npv (id_out dom cod v).
Proof. destruct v as [p| |]; cbn [id_out]; auto. destruct p; cbn [obj_pv]; apply npv_bind; auto. Qed.
Lemma npv_apply diff P : (forall d v, isnt v -> npv (diff d v)) -> forall v, isnt v -> npv (op_apply diff P v).
Proof.
  intros HD. induction P as [d c|d|s M IH|Ls IH|Ls IH] using lfo_induction; intros v Hv.
  - apply npv_id. - now apply HD.
  - cbn [op_apply]. apply npv_bind. intros w Hw. apply npv_scale. unfold isnt. rewrite <- Hw. now apply IH.
  - cbn [op_apply]. destruct Ls as [|L Ls]; [auto|]. apply npv_fold. apply IH; [now left|exact Hv].
  - cbn [op_apply]. induction Ls as [|L Ls IHL]; cbn [fold_right]; [exact Hv|]. apply npv_bind. intros w Hw. apply IH; [now left|]. unfold isnt. rewrite <- Hw. apply IHL.
    intros M HM. apply IH. now right.
Qed.
Lemma npv_apply_wf diff p P : (forall d v, isnt v -> npv (diff d v)) -> (forall d, dwf d -> npv (diff d (OutPv p))) -> wfo P -> npv (op_apply diff P (OutPv p)).
Proof.
  intros HD HP. induction 1 as [d c|d Hd|s L W IH|L Ls HW IH HE|L W IH|L M Ls W IH W' IH' HE].
  - apply npv_id. - now apply HP.
  - cbn [op_apply]. apply npv_bind. intros w Hw. apply npv_scale. unfold isnt. now rewrite <- Hw.
  - cbn [op_apply]. apply npv_fold. apply IH. now left.
  - exact IH.
  - change (npv (bind (op_apply diff (OComp (M :: Ls)) (OutPv p)) (op_apply diff L))). apply npv_bind. intros w Hw. apply npv_apply; [exact HD|]. unfold isnt. now rewrite <- Hw.
Qed.
Lemma npv_fallback d v : npv (out_fallback d v).
Proof. destruct d, v; cbn; auto. Qed.
Lemma npv_nojax d v : isnt v -> npv (diff_nojax d v).
Proof. intros H. destruct v as [p| |]; [now destruct (H p)| |]; cbn; destruct (d_order0 d); auto. Qed.
Lemma npv_out d v : isnt v -> npv (diff_out d v).
Proof.
  intros H. assert (X : npv (diff_alt d v)).
  { unfold diff_alt. apply npv_else; [|intros _; apply npv_fallback]. destruct (is_partial d); [auto|]. apply npv_bind. intros L _. apply npv_apply; [apply npv_nojax|exact H]. }
  destruct v as [p| |]; [now destruct (H p)| |]; cbn [diff_out]; destruct (d_order0 d); auto.
Qed.
Lemma order0 d : dwf d -> d_order0 d = false.
Proof. destruct d; cbn; auto; intros [_ H]; now apply Nat.eqb_neq. Qed.
Lemma no_rule_pv alt d p : dwf d -> no_rule p = true -> diff_pv alt d p = alt p.
Proof. intros W H. apply order0 in W. unfold diff_pv. destruct p; try discriminate; cbn [obj_pv]; now rewrite W. Qed.
Lemma npv_alt d p : dwf d -> no_rule p = true -> npv (diff_alt d (OutPv p)).
Proof.
  intros W H. unfold diff_alt. apply npv_else; [|intros _; apply npv_fallback]. destruct (is_partial d); [auto|]. apply npv_bind. intros L HL.
  apply npv_apply_wf; [apply npv_nojax| |now apply (to_sum_ok d)]. intros d' W'. cbn [diff_nojax]. now rewrite no_rule_pv.
Qed.
Definition nojax (d : dop) : bool := match d with DPartialNoJax _ => true | _ => false end.
Lemma nojax_alt d v : nojax d = true -> diff_alt d v = Err NotImplementedError.
Proof. destruct d; try discriminate. reflexivity. Qed.
Lemma alt_defined d p : nojax d = false -> diff_alt d (OutPv p) <> Err NotImplementedError.
Proof. intros H. unfold diff_alt. destruct (if is_partial d then _ else _) as [v|[]]; cbn; try discriminate. destruct d; discriminate. Qed.
Lemma out_defined d p : dwf d -> nojax d = false -> diff_out d (OutPv p) <> Err NotImplementedError.
Proof.
  intros W H. apply order0 in W. assert (X : forall r a, a <> Err NotImplementedError -> or_else r a <> Err NotImplementedError (A := opout)).
  { intros r a Ha. destruct r as [v|[]]; cbn [or_else]; congruence || exact Ha. }
  cbn [diff_out]. unfold diff_pv. destruct p; cbn [obj_pv]; rewrite W; apply X; now apply alt_defined.
Qed.

Section Diff.
Variables (dom : shape) (d : dop).
Hypotheses (Wd : dwf d) (Ed : d_dom d = dom).
Lemma diff_evp alt p rv E : good dom p rv E -> evp p = true -> exists q, diff_pv alt d p = Ok (OutPv q) /\ lo_pv (lop_of (ODiff d)) p = Ok q.
Proof.
  assert (O := order0 d Wd). assert (WP := wo_diff d Wd). assert (EI : o_in (ODiff d) = (dom, [])) by (cbn; now rewrite Ed).
  induction 1 as [rv v|e v De Ce S|s p rv E G IH|p q rv E E' G1 IH1 G2 IH2|A p E G IH N|p rv E E' G IH HE]; cbn [evp]; intros HV; try discriminate; auto.
  - unfold diff_pv. cbn [obj_pv lo_pv]. rewrite O, (op_kern dom _ WP EI v 0) by now left. cbn [bind or_else]. eexists. split; reflexivity.
  - destruct (IH HV) as (u & E1 & E2). unfold diff_pv in *. cbn [obj_pv lo_pv]. rewrite E1, E2, O. cbn. eexists. split; reflexivity.
  - cbn [forallb] in HV. apply andb_prop in HV as [H1 H2]. apply andb_prop in H2 as [H2 _]. destruct (IH1 H1) as (u & E1 & E2), (IH2 H2) as (w & F1 & F2).
    unfold diff_pv in *. cbn [obj_pv lo_pv mapR]. rewrite E1, F1, E2, F2, O. cbn [bind out_pv mapR].
    rewrite (good_sum dom u w _ _ _ (good_op dom _ WP EI _ _ _ G1 _ E2) (good_op dom _ WP EI _ _ _ G2 _ F2)). cbn. eexists. split; reflexivity.
Qed.
Lemma diff_nevp p rv E : good dom p rv E -> evp p = false -> npv (diff_out d (OutPv p)).
Proof.
  assert (O := order0 d Wd). assert (D := fun p H => out_defined d p Wd H). cbn [diff_out] in D |- *.
  assert (R : forall r p, npv r -> (nojax d = false -> r <> Err NotImplementedError) -> npv (or_else r (diff_alt d (OutPv p)))).
  { intros r p1 Hr HN. apply npv_else; [exact Hr|]. intros ->. destruct (nojax d) eqn:J; [now rewrite nojax_alt|]. now destruct (HN eq_refl). }
  induction 1 as [rv v|e v De Ce S|s p rv E G IH|p q rv E E' G1 IH1 G2 IH2|A p E G IH N|p rv E E' G IH HE]; cbn [evp]; intros HV; try discriminate; auto.
  - rewrite no_rule_pv by auto. now apply npv_alt.
  - specialize (IH HV). specialize (D p). unfold diff_pv in *. cbn [obj_pv]. rewrite O at 1. apply R.
    + destruct (obj_pv _ _ _ _ p) as [[x| |]|]; cbn; auto. now destruct (IH x).
    + intros J. specialize (D J). destruct (obj_pv _ _ _ _ p) as [[x| |]|]; cbn; congruence.
  - assert (HV' : evp p = false \/ evp q = false). { cbn [forallb] in HV. destruct (evp p); [|now left]. destruct (evp q); [discriminate|now right]. }
    clear HV. assert (Dp := D p). assert (Dq := D q). unfold diff_pv in *. cbn [obj_pv mapR]. rewrite O at 1. apply R.
    + destruct HV' as [HV|HV]; [specialize (IH1 HV)|specialize (IH2 HV)].
      * destruct (obj_pv _ _ _ _ p) as [[x| |]|]; cbn [bind]; auto; [now destruct (IH1 x)| |]; destruct (obj_pv _ _ _ _ q) as [[y| |]|]; cbn; auto.
      * destruct (obj_pv _ _ _ _ p) as [[x| |]|]; cbn [bind]; auto; destruct (obj_pv _ _ _ _ q) as [[y| |]|]; cbn; auto. now destruct (IH2 y).
    + intros J. specialize (Dp J). specialize (Dq J). destruct (obj_pv _ _ _ _ p) as [x|]; cbn [bind]; [|congruence]. destruct (obj_pv _ _ _ _ q) as [y|]; cbn [bind]; [|congruence].
      destruct x as [x| |], y as [y| |]; cbn [mapR out_pv bind]; try congruence. destruct (CrossModel.mk_sum [x; y]) as [z|e] eqn:E0; cbn [bind]; [congruence|].
      unfold CrossModel.mk_sum in E0. destruct (forallb _ _) in E0; congruence.
  - rewrite no_rule_pv by auto. now apply npv_alt.
Qed.
End Diff.

(** An operator as a linear combination of repeated derivatives. *)
Fixpoint oterms (P : lfo) : list (R * ((array -> R) -> array -> R)) :=
  match P with
  | OId _ _ => [(1, fun h => h)]
  | ODiff d => [(1, dsem d)]
  | OScaled s Q => map (fun t => (s * fst t, snd t)) (oterms Q)
  | OSum Ps => flat_map oterms Ps
  | OComp Ps => fold_right (fun Q acc => flat_map (fun u => map (fun t => (fst u * fst t, fun h => snd t (snd u h))) (oterms Q)) acc) [(1, fun h => h)] Ps
  end.
Definition out_good dom rv (E : index -> terms) (ts : list (R * ((array -> R) -> array -> R))) (q : pvcc RF) : Prop :=
  evp q = true /\ exists E', good dom q rv E' /\ (forall r l, weigh (E' r) l = weigh (E r) (fun h => weigh ts (fun op => l (op h)))) /\
    forall r, (forall t, In t (E r) -> smooth dom (snd t)) -> forall t, In t (E' r) -> smooth dom (snd t).
Lemma out_good_add dom rv E ts us a b : out_good dom rv E ts a -> out_good dom rv E us b ->
  exists q, out_add (OutPv a) (OutPv b) = Ok (OutPv q) /\ out_good dom rv E (ts ++ us) q.
Proof.
  intros (Va & Ea & Ga & Wa & Sa) (Vb & Eb & Gb & Wb & Sb). cbn [out_add]. unfold p_add. rewrite (good_sum dom a b rv Ea Eb Ga Gb). eexists. split; [reflexivity|].
  split; [cbn [evp forallb]; now rewrite Va, Vb|]. exists (fun r => Ea r ++ Eb r). split; [now apply g_sum|]. split.
  - intros r l. rewrite weigh_app, Wa, Wb, <- weigh_add. apply weigh_ext. intros c h _. now rewrite weigh_app.
  - intros r HS t Ht. apply in_app_or in Ht as [Ht|Ht]; [now apply (Sa r)|now apply (Sb r)].
Qed.
Lemma out_good_scale dom rv E ts s a : out_good dom rv E ts a -> out_good dom rv E (map (fun t => (s * fst t, snd t)) ts) (PScaled (s : RF) a).
Proof.
  intros (Va & Ea & Ga & Wa & Sa). split; [exact Va|]. exists (fun r => map (fun t => (s * fst t, snd t)) (Ea r)). split; [now apply g_scaled|]. split.
  - intros r l. rewrite (weigh_scale s (fun h => h)), Wa, <- weigh_scal. apply weigh_ext. intros c h _. symmetry. apply (weigh_scale s (fun op => op)).
  - intros r HS t Ht. apply in_map_iff in Ht as (u & <- & Hu). cbn [snd]. exact (Sa r HS u Hu).
Qed.
Lemma op_out P : wfo P -> forall dom p rv E q, o_in P = (dom, []) -> good dom p rv E -> op_pv P p = Ok (OutPv q) ->
  identity_free P = true /\ evp p = true /\ out_good dom rv E (oterms P) q.
Proof.
  unfold op_pv. induction 1 as [d c|d Hd|s L W IH|L Ls HW IH HE|L W IH|L M Ls W IH W' IH' HE]; intros dom p rv E q EI G H.
  - destruct (npv_id d c (OutPv p) q H).
  - cbn [o_in] in EI. injection EI as Ed. cbn [op_apply] in H. destruct (evp p) eqn:V; [|destruct (diff_nevp dom d Hd p rv E G V q H)].
    destruct (diff_evp dom d Hd Ed (fun q => diff_alt d (OutPv q)) p rv E G V) as (u & Hu & Hl). cbn [diff_out] in H. rewrite Hu in H. injection H as ->.
    assert (EI : o_in (ODiff d) = (dom, [])) by (cbn; now rewrite Ed). split; [reflexivity|]. split; [reflexivity|].
    destruct (good_op_total dom (ODiff d) (wo_diff d Hd) EI p rv E G V) as (u' & Hl' & Vu). rewrite Hl in Hl'. injection Hl' as <-. split; [exact Vu|].
    eexists. split; [apply (good_op dom (ODiff d) (wo_diff d Hd) EI p rv E G q Hl)|]. split.
    + intros r l. rewrite (weigh_map (osemS (ODiff d)) (E r) l). apply weigh_ext. intros c h _. cbn [oterms]. now rewrite weigh1.
    + intros r HS t Ht. apply in_map_iff in Ht as (w & <- & Hw). cbn [snd]. subst dom. change (smooth (d_dom d) (dsem d (snd w))). apply dsem_smooth. now apply HS.
  - cbn [op_apply] in H. destruct (npv_or (op_apply diff_out L (OutPv p))) as [N|[a Ea]].
    { exfalso. destruct (op_apply diff_out L (OutPv p)) as [v|]; [|discriminate]. cbn [bind] in H. exact (npv_scale s v N q H). }
    rewrite Ea in H. cbn in H. injection H as <-. destruct (IH dom p rv E a EI G Ea) as (I & V & O). split; [exact I|]. split; [exact V|]. now apply out_good_scale.
  - cbn [op_apply] in H.
    assert (X : forall Ms, (forall M, In M Ms -> In M (L :: Ls)) -> forall ts r0, (forall a, r0 = Ok (OutPv a) -> evp p = true /\ out_good dom rv E ts a) ->
      fold_left (fun acc M => bind acc (fun a => bind (op_apply diff_out M (OutPv p)) (out_add a))) Ms r0 = Ok (OutPv q) ->
      forallb identity_free Ms = true /\ evp p = true /\ out_good dom rv E (ts ++ flat_map oterms Ms) q).
    { clear H. intros Ms. induction Ms as [|M Ms IHM]; intros HM ts r0 H0 H; cbn [fold_left flat_map forallb] in *.
      - rewrite app_nil_r. split; [reflexivity|]. now apply H0.
      - destruct (npv_or r0) as [N|[a ->]].
        { exfalso. revert H. apply npv_fold. apply npv_bind. intros v ->. apply npv_bind. intros w _. now apply npv_add_l. }
        destruct (H0 a eq_refl) as [V Oa]. cbn [bind] in H. destruct (npv_or (op_apply diff_out M (OutPv p))) as [N|[b Eb]].
        { exfalso. revert H. apply npv_fold. apply npv_bind. intros w Hw. destruct w as [w| |]; cbn; auto. rewrite Hw in N. now destruct (N w). }
        assert (HIn := HM M (or_introl eq_refl)). destruct (HE M HIn) as [MI _]. cbn [o_in] in EI.
        destruct (IH M HIn dom p rv E b (eq_trans MI EI) G Eb) as (I & _ & Ob). rewrite Eb in H. cbn [bind] in H.
        destruct (out_good_add dom rv E _ _ a b Oa Ob) as (c & Ec & Oc). rewrite Ec in H.
        destruct (IHM (fun N HN => HM N (or_intror HN)) (ts ++ oterms M) (Ok (OutPv c))) as (I' & V' & O'); [intros a' [= <-]; auto|exact H|].
        rewrite I, I', app_assoc. auto. }
    cbn [oterms flat_map identity_free forallb]. cbn [o_in] in EI.
    destruct (X Ls (fun M HM => or_intror HM) (oterms L) (op_apply diff_out L (OutPv p))) as (I & V & O); [|exact H|].
    { intros a Ha. now destruct (IH L (or_introl eq_refl) dom p rv E a EI G Ha) as (_ & V & O). }
    destruct (npv_or (op_apply diff_out L (OutPv p))) as [N|[a Ea]]; [exfalso; revert H; now apply npv_fold|].
    destruct (IH L (or_introl eq_refl) dom p rv E a EI G Ea) as (I0 & _). rewrite I0, I. auto.
  - destruct (IH dom p rv E q EI G H) as (I & V & O). cbn [identity_free forallb]. rewrite I. split; [reflexivity|]. split; [exact V|].
    destruct O as (Vq & E' & G' & W0 & S'). split; [exact Vq|]. exists E'. split; [exact G'|]. split; [|exact S']. intros r l. rewrite W0. apply weigh_ext. intros c h _.
    cbn [oterms fold_right flat_map]. rewrite app_nil_r. cbn [fst snd]. symmetry. rewrite (weigh_scale 1 (fun t (h : array -> R) => t h)). ring.
  - change (bind (op_apply diff_out (OComp (M :: Ls)) (OutPv p)) (op_apply diff_out L) = Ok (OutPv q)) in H.
    destruct (npv_or (op_apply diff_out (OComp (M :: Ls)) (OutPv p))) as [N|[a Ea]].
    { exfalso. destruct (op_apply diff_out (OComp (M :: Ls)) (OutPv p)) as [v|]; [|discriminate]. cbn [bind] in H. revert H. apply npv_apply; [apply npv_out|exact N]. }
    rewrite Ea in H. cbn [bind] in H. destruct (IH' dom p rv E a EI G Ea) as (I' & V & Va & E1 & G1 & W1 & S1).
    assert (EL : o_in L = (dom, [])) by (rewrite HE; exact (scalar_op _ dom W' EI)).
    destruct (IH dom a rv E1 q EL G1 H) as (I & _ & Vq & E2 & G2 & W2 & S2).
    cbn [identity_free forallb] in *. rewrite I. split; [exact I'|]. split; [exact V|]. split; [exact Vq|]. exists E2. split; [exact G2|]. split; [|intros r HS; apply S2, S1, HS].
    intros r l. rewrite W2, W1. apply weigh_ext. intros c h _. change (oterms (OComp (L :: M :: Ls))) with
      (flat_map (fun u => map (fun t => (fst u * fst t, fun h => snd t (snd u h))) (oterms L)) (oterms (OComp (M :: Ls)))).
    rewrite weigh_flat. unfold weigh at 1. f_equal. apply map_ext. intros u. symmetry. apply (weigh_scale (fst u) (fun t (h : array -> R) => t (snd u h))).
Qed.
Lemma op_total P : wfo P -> forall dom p rv E, o_in P = (dom, []) -> good dom p rv E -> identity_free P = true -> evp p = true -> exists q, op_pv P p = Ok (OutPv q).
Proof.
  unfold op_pv. induction 1 as [d c|d Hd|s L W IH|L Ls HW IH HE|L W IH|L M Ls W IH W' IH' HE]; intros dom p rv E EI G HI V; cbn [identity_free] in HI.
  - discriminate.
  - cbn [o_in] in EI. injection EI as Ed. destruct (diff_evp dom d Hd Ed (fun q => diff_alt d (OutPv q)) p rv E G V) as (u & Hu & _). eauto.
  - destruct (IH dom p rv E EI G HI V) as [a Ea]. cbn [op_apply]. rewrite Ea. cbn. eauto.
  - cbn [op_apply o_in forallb] in *. apply andb_prop in HI as [I0 HI]. destruct (IH L (or_introl eq_refl) dom p rv E EI G I0 V) as [a Ea].
    destruct (op_out L (HW L (or_introl eq_refl)) dom p rv E a EI G Ea) as (_ & _ & Oa). rewrite Ea. clear Ea I0. revert a Oa. generalize (oterms L) as ts.
    assert (HM : forall M, In M Ls -> In M (L :: Ls)) by (intros M HM; now right). revert HM HI. generalize Ls at 1 3 4 as Ms. induction Ms as [|M Ms IHM]; intros HM HI ts a Oa; cbn [fold_left].
    + eauto.
    + cbn [forallb] in HI. apply andb_prop in HI as [I1 HI]. assert (HIn := HM M (or_introl eq_refl)). destruct (HE M HIn) as [MI _].
      destruct (IH M HIn dom p rv E (eq_trans MI EI) G I1 V) as [b Eb]. destruct (op_out M (HW M HIn) dom p rv E b (eq_trans MI EI) G Eb) as (_ & _ & Ob).
      rewrite Eb. cbn [bind]. destruct (out_good_add dom rv E _ _ a b Oa Ob) as (c & -> & Oc). apply (IHM (fun N HN => HM N (or_intror HN)) HI _ c Oc).
  - cbn [forallb] in HI. apply andb_prop in HI as [HI _]. now apply (IH dom p rv E).
  - change (exists q, bind (op_apply diff_out (OComp (M :: Ls)) (OutPv p)) (op_apply diff_out L) = Ok (OutPv q)).
    change (identity_free L && identity_free (OComp (M :: Ls)) = true) in HI. apply andb_prop in HI as [I0 HI]. destruct (IH' dom p rv E EI G HI V) as [a Ea]. rewrite Ea. cbn [bind].
    destruct (op_out _ W' dom p rv E a EI G Ea) as (_ & _ & Va & E' & G' & _). apply (IH dom a rv E'); auto. rewrite HE. exact (scalar_op _ dom W' EI).
Qed.

(** *** Their values *)
Lemma osem_ksem P : forall F x, osem P F x [] = ksem P (fun y => F y []) x.
Proof.
  induction P as [d c|d|s M IH|Ls IH|Ls IH] using lfo_induction; intros F x; cbn [osem ksem]; auto.
  - now rewrite IH.
  - f_equal. apply map_ext_in. intros M HM. now apply IH.
  - revert x. induction Ls as [|L Ls IHL]; intros x; [reflexivity|]. cbn [fold_right]. rewrite (IH L (or_introl eq_refl)). f_equal. extensionality y.
    apply IHL. intros M HM. apply IH. now right.
Qed.
Lemma osemS_comp L Ls h : osemS (OComp (L :: Ls)) h = osemS L (osemS (OComp Ls) h).
Proof. extensionality x. unfold osemS. rewrite !osem_ksem. cbn [ksem fold_right]. f_equal. extensionality y. rewrite osem_ksem. reflexivity. Qed.
Lemma weigh_flat_comp {A B C} (us : list (R * A)) (ts : list (R * B)) (g : A -> B -> C) w :
  weigh (flat_map (fun u => map (fun t => (fst u * fst t, g (snd u) (snd t))) ts) us) w = weigh us (fun u => weigh ts (fun t => w (g u t))).
Proof. rewrite weigh_flat. unfold weigh at 2. f_equal. apply map_ext. intros u. apply (weigh_scale (fst u) (g (snd u))). Qed.
Lemma weigh_swap {A B} (s : list (R * A)) (t : list (R * B)) w : weigh s (fun a => weigh t (fun b => w a b)) = weigh t (fun b => weigh s (fun a => w a b)).
Proof.
  induction s as [|x s IH]; [symmetry; unfold weigh at 1; apply total_zero; intros; apply Rmult_0_r|]. rewrite weigh_cons, IH, <- weigh_scal, <- weigh_add. apply weigh_ext. intros c b _. now rewrite weigh_cons.
Qed.
Lemma comp_terms L Ls : oterms (OComp (L :: Ls)) = flat_map (fun u => map (fun t => (fst u * fst t, fun h => snd t (snd u h))) (oterms L)) (oterms (OComp Ls)).
Proof. reflexivity. Qed.
Definition slin (dom : shape) {B} (l : (array -> R) -> B -> R) : Prop := forall A (s : list (R * A)) (g : A -> array -> R), (forall c a, In (c, a) s -> smooth dom (g a)) ->
  forall b, l (fun x => weigh s (fun a => g a x)) b = weigh s (fun a => l (g a) b).
Lemma smooth_weigh dom {A} (s : list (R * A)) (g : A -> array -> R) : (forall c a, In (c, a) s -> smooth dom (g a)) -> smooth dom (fun x => weigh s (fun a => g a x)).
Proof. intros H. unfold weigh. apply (smooth_total dom (fun t x => fst t * g (snd t) x)). intros [c a] Ha. apply smooth_scal. now apply (H c). Qed.
Lemma slin_osem P dom : wfo P -> o_in P = (dom, []) -> slin dom (osemS P).
Proof.
  intros W EI A s g Hs b. unfold osemS. induction s as [|[c a] s IH].
  - rewrite weigh_nil. change (fun (y : array) (_ : index) => weigh [] (fun a => g a y)) with (fun (_ : array) (_ : index) => 0). now rewrite (osem_zero P W).
  - rewrite weigh_cons. cbn [fst snd]. rewrite <- IH by (intros c0 a0 H0; apply (Hs c0 a0); now right).
    change (fun (y : array) (_ : index) => weigh ((c, a) :: s) (fun a => g a y)) with (fun (y : array) (_ : index) => c * g a y + weigh s (fun a => g a y)).
    rewrite (osem_lin P W c (fun y _ => g a y) (fun y _ => weigh s (fun a => g a y))); [reflexivity| |].
    + rewrite EI. intros _. apply (Hs c a). now left.
    + rewrite EI. intros _. apply smooth_weigh. intros c' a' Ha. apply (Hs c'). now right.
Qed.
Lemma smooth_osem P dom h : wfo P -> o_in P = (dom, []) -> smooth dom h -> smooth dom (osemS P h).
Proof.
  intros W EI Sh. assert (X := osem_smooth P W (fun y _ => h y)). rewrite EI in X. assert (Y := X (fun _ => Sh)). rewrite (scalar_op P dom W EI) in Y. exact (Y eq_refl).
Qed.
Lemma oterms_smooth P dom : wfo P -> o_in P = (dom, []) -> forall c op, In (c, op) (oterms P) -> forall h, smooth dom h -> smooth dom (op h).
Proof.
  intros W EI. apply (wfo_opdom P dom W) in EI. clear W. induction P as [d c|d|s M IH|Ls IH|Ls IH] using lfo_induction; cbn [oterms opdom] in *; intros c' op HI h Sh.
  - destruct HI as [[= <- <-]|[]]. exact Sh.
  - destruct HI as [[= <- <-]|[]]. subst dom. now apply dsem_smooth.
  - apply in_map_iff in HI as ([k o] & [= <- <-] & HI). now apply (IH EI k o).
  - apply in_flat_map in HI as (M & HM & HI). apply (IH M HM) with (c := c'); auto. now apply (opdom_in dom Ls).
  - revert c' op HI. induction Ls as [|L Ls IHL]; cbn [fold_right] in *; intros c' op HI.
    + destruct HI as [[= <- <-]|[]]. exact Sh.
    + apply in_flat_map in HI as ([k u] & Hu & HI). apply in_map_iff in HI as ([k' t] & [= <- <-] & Ht). cbn [snd].
      apply (IH L (or_introl eq_refl) (proj1 EI) k' t Ht). apply (IHL (fun M HM => IH M (or_intror HM)) (proj2 EI) k u Hu).
Qed.
Lemma oterms_value P dom : wfo P -> o_in P = (dom, []) -> forall h, smooth dom h -> forall x, osemS P h x = weigh (oterms P) (fun op => op h x).
Proof.
  induction 1 as [d c|d Hd|s L W IH|L Ls HW IH HE|L W IH|L M Ls W IH W' IH' HE]; intros EI h Sh x.
  - cbn [oterms]. now rewrite weigh1.
  - cbn [oterms]. now rewrite weigh1.
  - cbn [oterms]. rewrite (weigh_scale s (fun op => op)), <- (IH EI h Sh x). reflexivity.
  - cbn [oterms o_in] in *. rewrite weigh_flat. unfold osemS. cbn [osem]. unfold total. f_equal. apply map_ext_in. intros M HM. destruct (HE M HM) as [MI _]. apply (IH M HM (eq_trans MI EI) h Sh x).
  - rewrite comp_terms, (weigh_flat_comp _ _ (fun u t h => t (u h))). cbn [oterms fold_right]. rewrite weigh1. exact (IH EI h Sh x).
  - assert (EL : o_in L = (dom, [])) by (rewrite HE; exact (scalar_op _ dom W' EI)).
    assert (S' := smooth_osem (OComp (M :: Ls)) dom h W' EI Sh).
    rewrite osemS_comp, comp_terms, (weigh_flat_comp _ _ (fun u t h => t (u h))).
    replace (osemS (OComp (M :: Ls)) h) with (fun y => weigh (oterms (OComp (M :: Ls))) (fun u => u h y)) by (extensionality y; symmetry; now apply IH').
    assert (SU : forall c u, In (c, u) (oterms (OComp (M :: Ls))) -> smooth dom (u h)) by (intros c u Hu; now apply (oterms_smooth (OComp (M :: Ls)) dom W' EI c u)).
    rewrite (slin_osem L dom W EL _ (oterms (OComp (M :: Ls))) (fun u => u h) SU x). apply weigh_ext. intros c u Hu. apply (IH EL (u h)). now apply (SU c).
Qed.
(** Without smoothness. *)
Lemma pd_homog i c f x : pd i (fun y => c * f y) x = c * pd i f x.
Proof. unfold pd. apply (Derive_scal (fun t => f (upd x i t))). Qed.
Lemma dsem_homog d c f : dsem d (fun y => c * f y) = fun y => c * dsem d f y.
Proof.
  assert (I : forall i n g, Nat.iter n (pd i) (fun y => c * g y) = fun y => c * Nat.iter n (pd i) g y).
  { intros i n g. induction n as [|n IH]; [reflexivity|]. change (pd i (Nat.iter n (pd i) (fun y => c * g y)) = fun y => c * pd i (Nat.iter n (pd i) g) y). rewrite IH. extensionality y. apply pd_homog. }
  assert (Q : forall a, pderiv a (fun y => c * f y) = fun y => c * pderiv a f y).
  { intros a. unfold pderiv. generalize f. induction (all_indices (mi_shape a)) as [|i l IH]; intros g; [reflexivity|]. cbn [fold_left]. rewrite I. apply IH. }
  destruct d as [al|al|b sh w|sh v]; cbn [dsem]; auto; extensionality y; rewrite <- total_mult; apply total_ext; intros i _.
  - rewrite (I i 2%nat f : pd i (pd i (fun y => c * f y)) = _). cbn [Nat.iter nat_rect]. ring.
  - rewrite pd_homog. ring.
Qed.
Lemma osem_homog P c : forall F, osem P (fun x k => c * F x k) = fun x k => c * osem P F x k.
Proof.
  induction P as [d e|d|s M IH|Ls IH|Ls IH] using lfo_induction; intros F; cbn [osem].
  - reflexivity.
  - extensionality x. extensionality k. now rewrite (dsem_homog d c (fun y => F y [])).
  - rewrite IH. extensionality x. extensionality k. ring.
  - extensionality x. extensionality k. rewrite <- total_mult. apply total_ext. intros M HM. now rewrite IH.
  - induction Ls as [|L Ls IHL]; cbn [fold_right]; [reflexivity|]. rewrite IHL by (intros M HM; apply IH; now right). apply IH. now left.
Qed.
Lemma osemS_homog P c h : osemS P (fun x => c * h x) = fun x => c * osemS P h x.
Proof. unfold osemS. extensionality x. now rewrite (osem_homog P c (fun y _ => h y)). Qed.
Lemma single_value P : single_term P = true -> exists c op, oterms P = [(c, op)] /\ forall h, osemS P h = fun x => c * op h x.
Proof.
  induction P as [d e|d|s M IH|Ls IH|Ls IH] using lfo_induction; cbn [single_term oterms]; intros H; try discriminate.
  - exists 1, (fun h => h). split; [reflexivity|]. intros h. extensionality x. symmetry. apply Rmult_1_l.
  - exists 1, (dsem d). split; [reflexivity|]. intros h. extensionality x. symmetry. apply Rmult_1_l.
  - destruct (IH H) as (c & op & -> & V). exists (s * c), op. split; [reflexivity|]. intros h. extensionality x. change (s * osemS M h x = s * c * op h x). rewrite V. ring.
  - induction Ls as [|L Ls IHL]; cbn [forallb fold_right] in *.
    + exists 1, (fun h => h). split; [reflexivity|]. intros h. extensionality x. symmetry. apply Rmult_1_l.
    + apply andb_prop in H as [H1 H2]. destruct (IHL (fun M HM => IH M (or_intror HM)) H2) as (c & op & E & V). destruct (IH L (or_introl eq_refl) H1) as (c' & op' & E' & V').
      rewrite E, E'. exists (c * c'), (fun h => op' (op h)). split; [reflexivity|]. intros h.
      rewrite osemS_comp, V, osemS_homog, V'. extensionality x. ring.
Qed.
Lemma last_value P : sums_last P = true -> forall h x, osemS P h x = weigh (oterms P) (fun op => op h x).
Proof.
  induction P as [d e|d|s M IH|Ls IH|Ls IH] using lfo_induction; cbn [sums_last oterms]; intros H h x.
  - now rewrite weigh1. - now rewrite weigh1.
  - rewrite (weigh_scale s (fun op => op)), <- (IH H h x). reflexivity.
  - rewrite forallb_forall in H. rewrite weigh_flat. unfold osemS. cbn [osem]. unfold total. f_equal. apply map_ext_in. intros M HM. apply (IH M HM (H M HM)).
  - destruct Ls as [|L Ls]; [cbn [fold_right]; now rewrite weigh1|]. apply andb_prop in H as [H1 H2]. destruct (single_value (OComp Ls) H2) as (c & op & E & V).
    change (osemS (OComp (L :: Ls)) h x = weigh (oterms (OComp (L :: Ls))) (fun op => op h x)). rewrite osemS_comp, comp_terms, E, V, osemS_homog.
    rewrite (weigh_flat_comp _ _ (fun u t h => t (u h))), weigh_cons, weigh_nil. cbn [fst snd]. rewrite (IH L (or_introl eq_refl) H1). ring.
Qed.
Lemma values_terms M : only_values M = true -> forall dom r c l, lwf M -> l_in M = (dom, []) -> In (c, l) (lterms M r) ->
  slin dom (fun f (_ : unit) => l f) /\ (forall k f, l (fun x => k * f x) = k * l f) /\ (no_operator M = true -> exists x0, forall f, l f = f x0).
Proof.
  induction M as [e|a b cod|n|d c o act|s L IH|Ls IH|A L op IH] using lfn_induction; intros HV dom r c' l W EI HI;
    inversion W as [e' HX| |? ? ? ? HA|? ? WL|L0 Ms HW HE|? ? ? WL Hop HA]; subst; cbn [only_values lterms l_in no_operator] in *; try discriminate.
  - destruct HI as [[= <- <-]|[]]. split; [now intros A s g _ b|]. split; [reflexivity|]. eauto.
  - apply in_map_iff in HI as ([k l'] & [= <- <-] & HI). exact (IH HV dom r k l' WL EI HI).
  - apply in_flat_map in HI as (M & HM & HI). rewrite forallb_forall in HV. destruct (IH M HM (HV M HM) dom r c' l (HW M HM)) as (X & Y & Z); [now rewrite (proj1 (HE M HM))|exact HI|].
    split; [exact X|]. split; [exact Y|]. intros HO. rewrite forallb_forall in HO. auto.
  - destruct A as [A|]; [discriminate|]. apply in_map_iff in HI as ([k l'] & [= <- <-] & HI). destruct op as [P|].
    + apply andb_prop in HV as [HV _]. destruct (Hop P eq_refl) as [WP EP]. assert (EL : l_in L = (dom, [])) by (rewrite <- EP; now apply scalar_op).
      destruct (IH HV dom r k l' WL EL HI) as (X & Y & _). cbn [pre_op]. split; [|split; [|discriminate]].
      * intros A s g Hs b. change (l' (osemS P (fun x => weigh s (fun a => g a x))) = weigh s (fun a => l' (osemS P (g a)))).
        replace (osemS P (fun x => weigh s (fun a => g a x))) with (fun x => weigh s (fun a => osemS P (g a) x)) by (extensionality x; symmetry; now apply (slin_osem P dom WP EI)).
        apply (X A s (fun a => osemS P (g a))); [|exact tt]. intros c a Ha. apply (smooth_osem P dom _ WP EI). now apply (Hs c).
      * intros c f. change (l' (osemS P (fun x => c * f x)) = c * l' (osemS P f)). now rewrite osemS_homog, Y.
    + exact (IH HV dom r k l' WL EI HI).
Qed.
Lemma pre_terms M P dom r c l h : only_values M = true -> lwf M -> l_in M = (dom, []) -> wfo P -> o_in P = (dom, []) -> In (c, l) (lterms M r) ->
  smooth dom h \/ single_term P = true \/ sums_last P = true /\ no_operator M = true -> weigh (oterms P) (fun op => l (op h)) = pre_op (Some P) l h.
Proof.
  intros HV W EI WP EP HI H. destruct (values_terms M HV dom r c l W EI HI) as (X & Y & Z). change (weigh (oterms P) (fun op => l (op h)) = l (osemS P h)).
  destruct H as [H|[H|[H1 H2]]].
  - replace (osemS P h) with (fun x => weigh (oterms P) (fun op => op h x)) by (extensionality x; symmetry; now apply (oterms_value P dom)).
    symmetry. apply (X _ (oterms P) (fun op => op h)); [|exact tt]. intros k op Hop. now apply (oterms_smooth P dom WP EP k op).
  - destruct (single_value P H) as (k & op & -> & ->). rewrite weigh_cons, weigh_nil, Y. cbn [fst snd]. ring.
  - destruct (Z H2) as [x0 Hx]. rewrite (Hx (osemS P h)), (last_value P H1). apply weigh_ext. intros k op _. apply Hx.
Qed.

(** ** Functionals of covariance functions *)
Definition sections (L : lfn) (v : array -> array -> R) (r : index) : terms := map (fun t => (fst t, fun x => snd t (v x))) (lterms L r).
Lemma reduce_good dom rv ps Es : Forall2 (fun p E => good dom p rv E) ps Es -> forall p0 E0, good dom p0 rv E0 ->
  exists p, reduceM p_add p0 ps = Ok p /\ good dom p rv (fun r => E0 r ++ concat (map (fun E => E r) Es)) /\
    noe p = noe p0 && forallb noe ps /\ evp p = evp p0 && forallb evp ps.
Proof.
  induction 1 as [|p E ps Es Hp H IH]; intros p0 E0 H0; cbn [reduceM].
  - exists p0. split; [reflexivity|]. split; [eapply g_ext; [exact H0|]; intros r _; cbn; now rewrite app_nil_r|]. cbn. now rewrite !andb_true_r.
  - unfold p_add at 1. rewrite (good_sum dom p0 p rv E0 E H0 Hp). cbn [bind]. destruct (IH _ _ (g_sum dom p0 p rv E0 E H0 Hp)) as (q & -> & Hq & N & V).
    exists q. split; [reflexivity|]. split; [eapply g_ext; [exact Hq|]; intros r _; cbn [map concat]; now rewrite app_assoc|].
    rewrite N, V. cbn [noe evp forallb]. rewrite !andb_true_r, !andb_assoc. auto.
Qed.
Fixpoint vals (L : lfn) : bool :=
  match L with
  | LEv _ => true
  | LScaled _ M | LComp None M _ => vals M
  | LSum Ls => forallb vals Ls
  | LInt _ _ _ | LWeak _ | LAct _ _ _ _ | LComp (Some _) _ _ => false
  end.
Lemma lk_good L : forall dom (v : kern), lwf L -> l_in L = (dom, []) -> matrices_ok L = true ->
  exists p, lk L (KLeaf dom [] [] v) 1 = Ok p /\ good dom p (l_out L) (sections L (fun x y => v x y [] [])) /\
    (evaluates L = false -> noe p = true) /\ evp p = vals L.
Proof.
  induction L as [e|a b cod|n|d c o act|s L IH|Ls IH|A L op IH] using lfn_induction; intros dom v W E HM;
    inversion W as [e' HX| |? ? ? ? HA|? ? WL|L0 Ms HW HE|? ? ? WL Hop HA]; subst; cbn [l_in l_out matrices_ok evaluates vals] in *.
  - injection E as Ed Ec. cbn [lk f_kern]. unfold validate. cbn [k_in k_out0 k_out1 Nat.eqb orb negb]. rewrite Ed, Ec, !shape_eqb_refl. cbn [negb bind].
    eexists. split; [reflexivity|]. split; [|auto; discriminate]. eapply g_ext; [apply g_eval; try assumption; congruence|]. reflexivity.
  - injection E as Ed Ec. subst dom cod. cbn [lk shape_eqb]. eexists. split; [reflexivity|]. split; [|auto; discriminate].
    eapply g_ext; [apply g_leaf|]. intros r Hr. inversion Hr. reflexivity.
  - injection E as Ed Ec. subst dom c. cbn [lk f_kern lf_kern]. unfold validate. cbn [lf_dom lf_cod lf_out lf_act k_in k_out0 k_out1 Nat.eqb orb negb]. rewrite !shape_eqb_refl. cbn [negb bind].
    eexists. split; [reflexivity|]. split; [|auto; discriminate]. eapply g_ext; [apply g_leaf|]. intros r Hr. unfold sections. cbn [lterms map fst snd]. f_equal. f_equal.
    extensionality x. apply HA; [|exact Hr]. intros y k Hk. now inversion Hk.
  - destruct (IH dom v WL E HM) as (p & Ep & G & N & V). cbn [lk]. rewrite Ep. cbn [bind]. eexists. split; [reflexivity|]. split; [|auto].
    eapply g_ext; [apply g_scaled, G|]. intros r _. unfold sections. cbn [lterms]. now rewrite !map_map.
  - cbn [lk]. assert (X : exists ps Es, mapR (fun M => lk M (KLeaf dom [] [] v) 1) (L0 :: Ms) = Ok ps /\ Forall2 (fun p E => good dom p (l_out L0) E) ps Es /\
        (existsb evaluates (L0 :: Ms) = false -> forallb noe ps = true) /\ forallb evp ps = forallb vals (L0 :: Ms) /\
        (forall r, concat (map (fun E : index -> terms => E r) Es) = sections (LSum (L0 :: Ms)) (fun x y => v x y [] []) r) /\ length ps = length (L0 :: Ms)).
    { cbn [l_in] in E. clear W. unfold sections. cbn [lterms]. revert HM HW HE IH. generalize (L0 :: Ms) as Ns. induction Ns as [|N Ns IHN]; intros HM HW HE IH.
      - exists [], []. cbn. split; [reflexivity|]. split; [constructor|]. auto.
      - cbn [forallb] in HM. apply andb_prop in HM as [M1 M2]. destruct (HE N (or_introl eq_refl)) as [NI NO].
        destruct (IH N (or_introl eq_refl) dom v (HW N (or_introl eq_refl)) (eq_trans NI E) M1) as (p & Ep & G & Np & Vp).
        destruct IHN as (ps & Es & Eps & Gs & Ns' & Vs & Cs & Ls); try assumption.
        { intros M HIn. apply HW. now right. } { intros M HIn. apply HE. now right. } { intros M HIn. apply IH. now right. }
        exists (p :: ps), (sections N (fun x y => v x y [] []) :: Es). cbn [mapR]. rewrite Ep. cbn [bind]. rewrite Eps. cbn [bind].
        split; [reflexivity|]. split; [constructor; [now rewrite <- NO|exact Gs]|]. cbn [existsb forallb flat_map map concat].
        split; [intros H; apply orb_false_elim in H as [H1 H2]; now rewrite Np, Ns'|]. split; [now rewrite Vp, Vs|].
        split; [intros r; rewrite Cs, map_app; reflexivity|cbn; now rewrite Ls]. }
    destruct X as (ps & Es & -> & Gs & N & V & C & Hl). cbn [bind]. destruct ps as [|p0 ps]; [discriminate|]. inversion Gs as [|? E0 ? Es' G0 Gs' Q1 Q2]; subst. cbn [reduce].
    destruct (reduce_good dom _ ps Es' Gs' p0 E0 G0) as (p & Ep & G & Np & Vp). exists p. split; [exact Ep|]. split; [|rewrite Np, Vp; split; [exact N|exact V]].
    eapply g_ext; [exact G|]. intros r _. rewrite <- C. reflexivity.
  - assert (X : exists k' : kern, (match op with Some P => lo_kern (lop_of P) (KLeaf dom [] [] v) 1 | None => Ok (KLeaf dom [] [] v) end) = Ok (KLeaf dom [] [] k') /\ l_in L = (dom, []) /\
        forall x l, l (fun y => k' x y [] []) = pre_op op l (fun y => v x y [] [])).
    { destruct op as [P|].
      - destruct (Hop P eq_refl) as [WP EP]. assert (O := scalar_op P dom WP E). eexists. split; [apply (op_kern dom P WP E v 1); now right|]. split; [congruence|].
        intros x l. cbn [Nat.eqb pre_op]. f_equal. apply (osemS_eq P dom (fun z k => v x z [] k) WP E).
      - exists v. auto. }
    destruct X as (k' & Ek & El & V'). cbn [lk]. cbn [l_in].
    assert (HV : validate (fst (match op with Some M => o_in M | None => l_in L end)) (snd (match op with Some M => o_in M | None => l_in L end)) (KLeaf dom [] [] v) 1 = Ok tt).
    { rewrite E. unfold validate. cbn [fst snd k_in k_out1 Nat.eqb orb negb]. now rewrite !shape_eqb_refl. }
    rewrite HV. cbn [bind]. rewrite Ek. cbn [bind].
    destruct (IH dom k' WL El) as (p & Ep & G & Np & Vp). { destruct A; [now apply andb_prop in HM|exact HM]. }
    rewrite Ep. cbn [bind]. destruct A as [A|].
    + assert (EA := HA A eq_refl). rewrite EA in G. rewrite (good_lin dom A p _ G). eexists. split; [reflexivity|].
      apply andb_prop in HM as [_ HM]. apply negb_true_iff in HM. split; [|split; [intros _; cbn; auto|reflexivity]].
      eapply g_ext; [apply (g_lin dom A p _ G (Np HM))|]. intros r _. unfold sections. cbn [lterms]. rewrite !flat_map_concat_map, concat_map, map_map. f_equal.
      apply map_ext. intros k. rewrite !map_map. apply map_ext. intros t. cbn [fst snd]. f_equal. extensionality x. apply V'.
    + eexists. split; [reflexivity|]. split; [|split; [exact Np|exact Vp]].
      eapply g_ext; [exact G|]. intros r _. unfold sections. cbn [lterms]. rewrite !map_map. apply map_ext. intros t. cbn [fst snd]. f_equal. extensionality x. apply V'.
Qed.

(** ** Functionals of cross-covariances *)
Definition pairing (L : lfn) (E : index -> terms) (s r : index) : R := weigh (lterms L s) (fun l => weigh (E r) (fun h => l h)).
Definition regular dom (L : lfn) (E : index -> terms) : Prop :=
  no_operator L = true \/ only_values L = true /\ (tame L = true \/ forall r t, In t (E r) -> smooth dom (snd t)).
Lemma regular_sum dom Ls E M : In M Ls -> regular dom (LSum Ls) E -> regular dom M E.
Proof.
  intros HM [H|[H1 H2]]; cbn [no_operator only_values tame] in *; [left; rewrite forallb_forall in H; auto|right; split; [rewrite forallb_forall in H1; auto|]].
  destruct H2 as [H2|H2]; [left; rewrite forallb_forall in H2; auto|now right].
Qed.
Lemma lp_sound L : forall dom p rv E c, lwf L -> l_in L = (dom, []) -> good dom p rv E -> regular dom L E -> lp L p = Ok c ->
  shows c (l_out L) rv (pairing L E : index -> index -> RF).
Proof.
  induction L as [e|a b cod|n|d c o act|s L IH|Ls IH|A L op IH] using lfn_induction; intros dom p rv E cv W EI G HR H;
    inversion W as [e' HX| |? ? ? ? HA|? ? WL|L0 Ms HW HE|? ? ? WL Hop HA]; subst; cbn [l_in l_out] in *; cbn [lp] in H.
  - injection EI as Ed Ec. subst dom. destruct (good_ev _ e p rv E eq_refl Ec HX G) as (c & Q & Sc). cbn [f_pv] in H, Q. rewrite Q in H. injection H as <-.
    eapply shows_ext; [exact Sc|]. intros s r _ _. unfold pairing. cbn [lterms]. now rewrite weigh1.
  - injection EI as Ed Ec. subst dom cod. cbn [shape_eqb] in H. cbn [f_pv] in H.
    destruct (good_lf [] (int_lfun a b) p rv E eq_refl eq_refl) as (c & Q & Sc); [|exact G|].
    { intros f g X s _. cbn [lf_act int_lfun]. apply RInt_ext. intros t _. apply X. }
    rewrite Q in H. injection H as <-. destruct (good_shape _ _ _ _ G) as (_ & _ & R1 & R2). unfold functl_cov in Sc. rewrite R1, R2 in Sc.
    eapply shows_ext; [exact Sc|]. intros s r _ _. unfold pairing. cbn [lterms]. now rewrite weigh1.
  - injection EI as Ed Ec. subst dom c. cbn [f_pv] in H.
    destruct (good_lf d (@mklfun RF d [] o act) p rv E eq_refl eq_refl) as (c & Q & Sc); [|exact G|].
    { intros f g X s Hs. cbn [lf_act lf_out] in *. apply HA; [|exact Hs]. intros x k Hk. inversion Hk. apply X. }
    rewrite Q in H. injection H as <-. destruct (good_shape _ _ _ _ G) as (_ & _ & R1 & R2). unfold functl_cov in Sc. rewrite R1, R2 in Sc.
    eapply shows_ext; [exact Sc|]. intros s r _ _. unfold pairing. cbn [lterms]. now rewrite weigh1.
  - destruct (lp L p) as [w|] eqn:Ew; [|discriminate]. cbn [bind] in H. assert (Sw := IH dom p rv E w WL EI G HR Ew).
    apply (crmul_shows (s : RF)) in Sw as [u [Eu Su]]. rewrite Eu in H. injection H as <-. eapply shows_ext; [exact Su|].
    intros i r _ _. unfold pairing. cbn [lterms]. symmetry. apply (weigh_scale s (fun l => l)).
  - destruct (mapR (fun M => lp M p) (L0 :: Ms)) as [cs|] eqn:Ec; [|discriminate]. cbn [bind] in H.
    assert (X : Forall2 (fun c M => shows c (l_out L0) rv (pairing M E : index -> index -> RF)) cs (L0 :: Ms)).
    { clear H W. assert (HR' := fun M HM => regular_sum dom _ E M HM HR). clear HR. revert cs HW HE IH HR' Ec. generalize (L0 :: Ms) as Ns. induction Ns as [|N Ns IHN]; intros cs HW HE IH HR' Ec; cbn [mapR] in Ec.
      - injection Ec as <-. constructor.
      - destruct (lp N p) as [w|] eqn:Ew; [|discriminate]. cbn [bind] in Ec. destruct (mapR (fun M => lp M p) Ns) as [ws|] eqn:Ews; [|discriminate]. injection Ec as <-.
        destruct (HE N (or_introl eq_refl)) as [NI NO]. constructor.
        + rewrite <- NO. apply (IH N (or_introl eq_refl) dom p rv E w (HW N (or_introl eq_refl)) (eq_trans NI EI) G (HR' N (or_introl eq_refl)) Ew).
        + apply IHN; auto; intros M HM; [apply HW|apply HE|apply IH|apply HR']; now right. }
    destruct cs as [|c0 cs]; [discriminate|]. inversion X as [|? ? ? ? X0 X1]; subst. cbn [reduce] in H.
    destruct (reduce_cadd RF_laws (l_out L0) rv (map (fun M => pairing M E : index -> index -> RF) Ms) cs c0 _ X0) as (w & Ew & Sw).
    { clear -X1. induction X1; cbn [map]; constructor; auto. }
    rewrite Ew in H. injection H as <-. eapply shows_ext; [exact Sw|]. intros s r _ _. unfold pairing. cbn [lterms flat_map]. rewrite weigh_app. cbn. f_equal.
    rewrite weigh_flat, map_map. reflexivity.
  - destruct (match op with Some P => op_pv P p | None => Ok (OutPv p) end) as [u|] eqn:Eq; [|discriminate]. cbn [bind] in H.
    assert (X : exists q E', u = OutPv q /\ good dom q rv E' /\ l_in L = (dom, []) /\ regular dom L E' /\
        forall s r c l, In (c, l) (lterms L s) -> weigh (E' r) (fun h => l h) = weigh (E r) (fun h => pre_op op l h)).
    { destruct op as [P|].
      - destruct (Hop P eq_refl) as [WP EP]. destruct u as [q| |]; try discriminate. destruct (op_out P WP dom p rv E q EI G Eq) as (_ & _ & _ & E' & G' & WE & SE).
        assert (EL : l_in L = (dom, [])) by (rewrite <- EP; now apply scalar_op). exists q, E'. split; [reflexivity|]. split; [exact G'|]. split; [exact EL|].
        destruct HR as [HR|[HV HR]]; [destruct A; discriminate|]. destruct A as [A|]; [discriminate|]. cbn [only_values tame] in HV, HR. apply andb_prop in HV as [HV _]. split.
        + right. split; [exact HV|]. destruct HR as [HR|HR]; [left; now apply andb_prop in HR|right; intros r; apply SE, HR].
        + intros s r c l HI. rewrite WE. apply weigh_ext. intros k h Hh. apply (pre_terms L P dom s c l h HV WL EL WP EI HI).
          destruct HR as [HR|HR]; [|left; now apply (HR r (k, h))]. right. apply andb_prop in HR as [_ HR]. apply orb_prop in HR as [HR|HR]; [now left|right; now apply andb_prop in HR].
      - injection Eq as <-. exists p, E. split; [reflexivity|]. split; [exact G|]. split; [exact EI|]. split; [|auto].
        destruct HR as [HR|[HV HR]]; [now left; destruct A|]. destruct A as [A|]; [discriminate|]. now right. }
    destruct X as (q & E' & -> & G' & EL & HR' & V). destruct (lp L q) as [w|] eqn:Ew; [|discriminate]. cbn [bind] in H. assert (Sw := IH dom q rv E' w WL EL G' HR' Ew).
    destruct A as [A|].
    + destruct (good_shape _ _ _ _ G) as (_ & _ & _ & R). rewrite R in H. rewrite (HA A eq_refl) in Sw.
      destruct (cov_lin_first A w (ncols A) rv _ Sw eq_refl) as (u & Eu & Su). rewrite Eu in H. injection H as <-. eapply shows_ext; [exact Su|].
      intros s r Hs _. apply valid1_inv in Hs as (k & -> & _). unfold pairing. cbn [lterms hd nth]. rewrite weigh_flat. unfold fsum, total. f_equal. apply map_ext. intros j.
      rewrite (weigh_scale (entry A k j) (pre_op op) (lterms L [j])). cbn. f_equal. apply weigh_ext. intros c l HI. exact (V _ r c l HI).
    + injection H as <-. eapply shows_ext; [exact Sw|]. intros s r _ _. unfold pairing. cbn [lterms]. rewrite (weigh_map (pre_op op)). apply weigh_ext. intros c l HI. exact (V _ r c l HI).
Qed.
Lemma lp_total L : forall dom p rv E, lwf L -> l_in L = (dom, []) -> good dom p rv E ->
  no_operator L = true \/ only_values L = true /\ evp p = true -> exists c (g : index -> index -> RF), lp L p = Ok c /\ shows c (l_out L) rv g.
Proof.
  induction L as [e|a b cod|n|d c o act|s L IH|Ls IH|A L op IH] using lfn_induction; intros dom p rv E W EI G H;
    inversion W as [e' HX| |? ? ? ? HA|? ? WL|L0 Ms HW HE|? ? ? WL Hop HA]; subst; cbn [l_in l_out no_operator only_values] in *; cbn [lp].
  - injection EI as Ed Ec. subst dom. destruct (good_ev _ e p rv E eq_refl Ec HX G) as (c & Q & Sc). cbn [f_pv] in *. rewrite Q. eauto.
  - injection EI as Ed Ec. subst dom cod. cbn [shape_eqb f_pv].
    destruct (good_lf [] (int_lfun a b) p rv E eq_refl eq_refl) as (c & Q & Sc); [|exact G|destruct (good_shape _ _ _ _ G) as (_ & _ & R1 & R2); unfold functl_cov in Sc; rewrite R1, R2 in Sc; eauto].
    intros f g X s _. cbn [lf_act int_lfun]. apply RInt_ext. intros t _. apply X.
  - injection EI as Ed Ec. subst dom c. cbn [f_pv].
    destruct (good_lf d (@mklfun RF d [] o act) p rv E eq_refl eq_refl) as (c & Q & Sc); [|exact G|destruct (good_shape _ _ _ _ G) as (_ & _ & R1 & R2); unfold functl_cov in Sc; rewrite R1, R2 in Sc; eauto].
    intros f g X s Hs. cbn [lf_act lf_out] in *. apply HA; [|exact Hs]. intros x k Hk. inversion Hk. apply X.
  - destruct (IH dom p rv E WL EI G H) as (w & g & Ew & Sw). rewrite Ew. cbn [bind].
    apply (crmul_shows (s : RF)) in Sw as [u [Eu Su]]. rewrite Eu. eauto.
  - assert (X : exists cs gs, mapR (fun M => lp M p) (L0 :: Ms) = Ok cs /\ Forall2 (fun c (g : index -> index -> RF) => shows c (l_out L0) rv g) cs gs /\ length cs = length (L0 :: Ms)).
    { clear W. revert HW HE IH H. generalize (L0 :: Ms) as Ns. induction Ns as [|N Ns IHN]; intros HW HE IH H; cbn [mapR].
      - exists [], []. auto.
      - destruct (HE N (or_introl eq_refl)) as [NI NO].
        destruct (IH N (or_introl eq_refl) dom p rv E (HW N (or_introl eq_refl)) (eq_trans NI EI) G) as (w & g & Ew & Sw).
        { cbn [forallb] in H. destruct H as [H|[H1 H2]]; [left; now apply andb_prop in H|right; apply andb_prop in H1; intuition]. }
        rewrite Ew. cbn [bind]. destruct IHN as (cs & gs & -> & Fs & Hl); try (intros M HM; first [apply HW|apply HE|apply IH]; now right).
        { cbn [forallb] in H. destruct H as [H|[H1 H2]]; [left; now apply andb_prop in H|right; apply andb_prop in H1; intuition]. }
        cbn [bind]. exists (w :: cs), (g :: gs). split; [reflexivity|]. rewrite NO in Sw. split; [now constructor|cbn; now rewrite Hl]. }
    destruct X as (cs & gs & -> & X & Hl). cbn [bind]. destruct X as [|c0 g0 cs' gs' X0 X1]; [discriminate|]. cbn [reduce].
    destruct (reduce_cadd RF_laws (l_out L0) rv gs' cs' c0 _ X0 X1) as (w & Ew & Sw). eauto.
  - assert (X : exists q E', (match op with Some P => op_pv P p | None => Ok (OutPv p) end) = Ok (OutPv q) /\ good dom q rv E' /\ l_in L = (dom, []) /\
        (no_operator L = true \/ only_values L = true /\ evp q = true)).
    { destruct op as [P|].
      - destruct H as [H|[H1 H2]]; [destruct A; discriminate|]. destruct A; [discriminate|]. apply andb_prop in H1 as [H1 H3].
        destruct (Hop P eq_refl) as [WP EP]. destruct (op_total P WP dom p rv E EI G H3 H2) as (q & Eq). destruct (op_out P WP dom p rv E q EI G Eq) as (_ & _ & Vq & E' & G' & _).
        exists q, E'. split; [exact Eq|]. split; [exact G'|]. split; [rewrite <- EP; now apply scalar_op|auto].
      - exists p, E. destruct A; intuition discriminate. }
    destruct X as (q & E' & -> & G' & EL & H'). cbn [bind]. destruct (IH dom q rv E' WL EL G' H') as (w & g & Ew & Sw). rewrite Ew. cbn [bind].
    destruct A as [A|]; [|eauto]. rewrite (HA A eq_refl) in Sw.
    destruct (good_shape _ _ _ _ G) as (_ & _ & _ & ->). destruct (cov_lin_first A w (ncols A) rv _ Sw eq_refl) as (u & -> & Su). eauto.
Qed.
(** What can be applied to cross-covariances at all. *)
Fixpoint ids (L : lfn) : bool :=
  match L with
  | LEv _ | LInt _ _ _ | LWeak _ | LAct _ _ _ _ => true
  | LScaled _ M | LComp _ M None => ids M
  | LComp _ M (Some P) => ids M && identity_free P
  | LSum Ls => forallb ids Ls
  end.
Lemma only_vals L : only_values L = vals L && ids L.
Proof.
  induction L as [e|a b cod|n|d c o act|s L IH|Ls IH|A L op IH] using lfn_induction; cbn [only_values vals ids]; auto.
  - induction Ls as [|M Ls IHL]; [reflexivity|]. cbn [forallb]. rewrite (IH M (or_introl eq_refl)), IHL by (intros N HN; apply IH; now right).
    destruct (vals M), (ids M); cbn; auto; now rewrite ?andb_false_r.
  - destruct A, op; cbn [andb]; auto. rewrite IH. now rewrite andb_assoc.
Qed.
Lemma no_ids L : no_operator L = true -> ids L = true.
Proof.
  induction L as [e|a b cod|n|d c o act|s L IH|Ls IH|A L op IH] using lfn_induction; cbn [no_operator ids]; auto.
  - rewrite !forallb_forall. auto.
  - destruct op; [destruct A; discriminate|]. destruct A; exact IH.
Qed.
Lemma lp_opened L : forall dom p rv E c, lwf L -> l_in L = (dom, []) -> good dom p rv E -> lp L p = Ok c -> ids L = true /\ (no_operator L = false -> evp p = true).
Proof.
  induction L as [e|a b cod|n|d c o act|s L IH|Ls IH|A L op IH] using lfn_induction; intros dom p rv E cv W EI G H;
    inversion W as [e' HX| |? ? ? ? HA|? ? WL|L0 Ms HW HE|? ? ? WL Hop HA]; subst; cbn [l_in no_operator ids] in *; cbn [lp] in H; try (split; [reflexivity|discriminate]).
  - destruct (lp L p) as [w|] eqn:Ew; [|discriminate]. exact (IH dom p rv E w WL EI G Ew).
  - destruct (mapR (fun M => lp M p) (L0 :: Ms)) as [cs|] eqn:Ec; [|discriminate]. clear H W. revert cs HW HE IH Ec. generalize (L0 :: Ms) as Ns.
    induction Ns as [|N Ns IHN]; intros cs HW HE IH Ec; cbn [mapR forallb] in *; [split; [reflexivity|discriminate]|].
    destruct (lp N p) as [w|] eqn:Ew; [|discriminate]. cbn [bind] in Ec. destruct (mapR (fun M => lp M p) Ns) as [ws|] eqn:Ews; [|discriminate].
    destruct (HE N (or_introl eq_refl)) as [NI NO]. destruct (IH N (or_introl eq_refl) dom p rv E w (HW N (or_introl eq_refl)) (eq_trans NI EI) G Ew) as [I V].
    destruct (IHN ws) as [I' V']; auto; try (intros M HM; first [apply HW|apply HE|apply IH]; now right).
    rewrite I, I'. split; [reflexivity|]. destruct (no_operator N); auto.
  - destruct (match op with Some P => op_pv P p | None => Ok (OutPv p) end) as [u|] eqn:Eq; [|discriminate]. cbn [bind] in H. destruct op as [P|].
    + destruct (Hop P eq_refl) as [WP EP]. destruct u as [q| |]; try discriminate. destruct (op_out P WP dom p rv E q EI G Eq) as (HI & V & _ & E' & G' & _).
      destruct (lp L q) as [w|] eqn:Ew; [|discriminate]. destruct (IH dom q rv E' w WL) as [I _]; auto; [rewrite <- EP; now apply scalar_op|]. destruct A; rewrite I, HI; auto.
    + injection Eq as <-. destruct (lp L p) as [w|] eqn:Ew; [|discriminate]. destruct A; exact (IH dom p rv E w WL EI G Ew).
Qed.

(** ** Means *)
Lemma lsem_terms L : forall dom F r, lwf L -> l_in L = (dom, []) -> valid_index (l_out L) r -> lsem L F r = lin_mean L (fun x => F x []) r.
Proof.
  unfold lin_mean. induction L as [e|a b cod|n|d c o act|s L IH|Ls IH|A L op IH] using lfn_induction; intros dom F r W EI Hr;
    inversion W as [e' HX| |? ? ? ? HA|? ? WL|L0 Ms HW HE|? ? ? WL Hop HA]; subst; cbn [l_in l_out lsem lterms] in *.
  - injection EI as Ed Ec. rewrite weigh1. now destruct (ev_idx e r Ec Hr) as (-> & -> & _).
  - injection EI as Ed Ec. rewrite weigh1. subst cod. now inversion Hr.
  - injection EI as Ed Ec. rewrite weigh1. apply HA; [|exact Hr]. subst c. intros x k Hk. now inversion Hk.
  - rewrite (weigh_scale s (fun l => l)). f_equal. now apply (IH dom).
  - rewrite weigh_flat. unfold total. f_equal. apply map_ext_in. intros M HM. destruct (HE M HM) as [MI MO]. apply (IH M HM dom F r (HW M HM)); congruence.
  - assert (V : forall s, valid_index (l_out L) s -> lsem L (match op with Some M => osem M F | None => F end) s = weigh (lterms L s) (fun l => pre_op op l (fun x => F x []))).
    { destruct op as [P|].
      - destruct (Hop P eq_refl) as [WP EP]. intros s Hs. rewrite (IH dom _ s WL) by (auto; rewrite <- EP; now apply scalar_op). apply weigh_ext. intros c l _. cbn [pre_op]. f_equal.
        extensionality x. now rewrite !osem_ksem.
      - intros s Hs. now apply (IH dom). }
    destruct A as [A|].
    + rewrite weigh_flat. unfold total. f_equal. apply map_ext_in. intros k Hk. apply in_seq in Hk. rewrite (weigh_scale _ (pre_op op)). f_equal. apply V. rewrite (HA A eq_refl). apply valid1. lia.
    + rewrite (weigh_map (pre_op op)). now apply V.
Qed.

(** ** Values of operators *)
Fixpoint vterms (L : lfn) (r : index) : list (R * (lfo * array)) :=
  match L with
  | LEv e => [(1, (OComp [], point_at (ev_X e) r))]
  | LScaled s M => map (fun t => (s * fst t, snd t)) (vterms M r)
  | LSum Ls => flat_map (fun M => vterms M r) Ls
  | LComp None M (Some P) => map (fun t => (fst t, (OComp [fst (snd t); P], snd (snd t)))) (vterms M r)
  | LComp None M None => vterms M r
  | _ => []
  end.
Definition at_term (t : R * (lfo * array)) : R * ((array -> R) -> R) := (fst t, fun f => ksem (fst (snd t)) f (snd (snd t))).
Lemma vterms_ok L r : only_values L = true -> lterms L r = map at_term (vterms L r).
Proof.
  induction L as [e|a b cod|n|d c o act|s L IH|Ls IH|A L op IH] using lfn_induction; cbn [only_values lterms vterms]; intros H; try discriminate.
  - reflexivity.
  - rewrite IH, !map_map by exact H. reflexivity.
  - induction Ls as [|M Ls IHL]; [reflexivity|]. cbn [forallb flat_map] in *. apply andb_prop in H as [H1 H2]. rewrite map_app, (IH M (or_introl eq_refl) H1). f_equal.
    apply IHL; auto. intros N HN. apply IH. now right.
  - destruct A as [A|]; [discriminate|]. destruct op as [P|].
    + apply andb_prop in H as [H1 _]. rewrite IH, !map_map by exact H1. apply map_ext. intros [c [Q x]]. unfold at_term. cbn [fst snd pre_op ksem fold_right]. f_equal.
      extensionality f. f_equal. extensionality y. apply osem_ksem.
    + rewrite IH, map_map by exact H. reflexivity.
Qed.
Lemma vterms_dom L dom r : lwf L -> l_in L = (dom, []) -> forall t, In t (vterms L r) -> opdom dom (fst (snd t)).
Proof.
  induction L as [e|a b cod|n|d c o act|s L IH|Ls IH|A L op IH] using lfn_induction; intros W EI;
    inversion W as [e' HX| |? ? ? ? HA|? ? WL|L0 Ms HW HE|? ? ? WL Hop HA]; subst; cbn [l_in vterms] in *; intros t Ht.
  - destruct Ht as [<-|[]]. cbn. exact I.
  - destruct Ht.
  - destruct Ht.
  - apply in_map_iff in Ht as (u & <- & Hu). exact (IH WL EI u Hu).
  - apply in_flat_map in Ht as (M & HM & Ht). apply (IH M HM); auto. now rewrite (proj1 (HE M HM)).
  - destruct A as [A|]; [destruct Ht|]. destruct op as [P|]; [|now apply IH]. apply in_map_iff in Ht as (u & <- & Hu). destruct (Hop P eq_refl) as [WP EP]. cbn [fst snd opdom fold_right].
    split; [apply (IH WL); [rewrite <- EP; now apply scalar_op|exact Hu]|]. split; [now apply wfo_opdom|exact I].
Qed.
