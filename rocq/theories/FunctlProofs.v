(** Lemmas about linear functionals. *)
From Coq Require Import List Reals Lra Lia Bool Arith FunctionalExtensionality.
From Coquelicot Require Import Coquelicot.
From Verif Require Import Base NdArray NdData BlockModel BlockProofs CovModel CrossModel CrossProofs CrossFun PolyClassModel PolyCalc FunExprModel FunExprProofs
  DiffopModel DiffopSpec LfoModel LfoSpec LfoSmooth LfoProofs LfoSound LfoTotal LfoAlg FunctlModel FunctlSpec.
From Verif Require CrossProps.
Import ListNotations.
Open Scope R_scope.

Lemma lfn_induction (P : lfn -> Prop) :
  (forall e, P (LEv e)) -> (forall a b cod, P (LInt a b cod)) -> (forall n, P (LWeak n)) -> (forall d c o act, P (LAct d c o act)) ->
  (forall s L, P L -> P (LScaled s L)) -> (forall Ls, (forall M, In M Ls -> P M) -> P (LSum Ls)) ->
  (forall A L op, P L -> P (LComp A L op)) -> forall L, P L.
Proof.
  intros H1 H2 H3 H4 H5 H6 H7. fix IH 1. intros [e|a b cod|n|d c o act|s L|Ls|A L op].
  - apply H1. - apply H2. - apply H3. - apply H4. - apply H5, IH.
  - apply H6. induction Ls as [|M Ls IHs]; intros N; [intros []|]. intros [<-|HN]; [apply IH|now apply IHs].
  - apply H7, IH.
Qed.

(** What an object computes. *)
Fixpoint lsem (L : lfn) (F : array -> array) (r : index) : R :=
  match L with
  | LEv e => F (pt (ev_X e) (ev_point e r)) (ev_output e r)
  | LInt a b _ => RInt (fun t => F (fun _ => t) r) a b
  | LWeak _ => 0
  | LAct _ _ _ act => act F r
  | LScaled s L => s * lsem L F r
  | LSum Ls => total (map (fun M => lsem M F r) Ls)
  | LComp A L op =>
      let G := match op with Some M => osem M F | None => F end in
      match A with
      | Some A => total (map (fun k => entry A (hd 0%nat r) k * lsem L G [k]) (seq 0 (ncols A)))
      | None => lsem L G r
      end
  end.
Inductive lwf : lfn -> Prop :=
| lw_ev e : nshape (ev_X e) = ev_batch e ++ ev_dom e -> lwf (LEv e)
| lw_int a b cod : lwf (LInt a b cod)
| lw_act dom cod out act :
    (forall f g, (forall x k, valid_index cod k -> f x k = g x k) -> forall r, valid_index out r -> act f r = act g r) ->
    lwf (LAct dom cod out act)
| lw_scaled s L : lwf L -> lwf (LScaled s L)
| lw_sum L Ls : (forall M, In M (L :: Ls) -> lwf M) ->
    (forall M, In M (L :: Ls) -> l_in M = l_in L /\ l_out M = l_out L) -> lwf (LSum (L :: Ls))
| lw_comp A L op : lwf L ->
    (forall M, op = Some M -> wfo M /\ o_out M = l_in L) ->
    (forall B, A = Some B -> l_out L = [ncols B]) -> lwf (LComp A L op).

Lemma valid1 n (k : nat) : (k < n)%nat -> valid_index [n] [k].
Proof. intros H. constructor; [exact H|constructor]. Qed.
Lemma valid1_inv n r : valid_index [n] r -> exists k, r = [k] /\ (k < n)%nat.
Proof. intros H. inversion H as [|k m l s Hk Hs]; subst. inversion Hs; subst. eauto. Qed.

Lemma lsem_ext L : lwf L -> forall F G, (forall x k, valid_index (snd (l_in L)) k -> F x k = G x k) ->
  forall r, valid_index (l_out L) r -> lsem L F r = lsem L G r.
Proof.
  induction L as [e|a b cod|n|d c o act|s L IH|Ls IH|A L op IH] using lfn_induction; intros W F G E r Hr;
    inversion W as [| |? ? ? ? HA|? ? WL|L0 Ms HW HE|? ? ? WL Hop HA]; subst; cbn [lsem l_in l_out] in *.
  - apply E. destruct (ev_out_inv e r Hr) as (s & q & _ & Hq & _ & -> & _). exact Hq.
  - apply RInt_ext. intros t _. now apply E.
  - now apply HA.
  - f_equal. now apply IH.
  - apply total_ext. intros M HM. destruct (HE M HM) as [Ei Eo]. apply IH; [exact HM|now apply HW|now rewrite Ei|now rewrite Eo].
  - set (F' := match op with Some M => osem M F | None => F end). set (G' := match op with Some M => osem M G | None => G end).
    assert (E' : forall x k, valid_index (snd (l_in L)) k -> F' x k = G' x k).
    { unfold F', G'. destruct op as [M|]; [|exact E]. destruct (Hop M eq_refl) as [WM EM]. intros x k Hk. apply osem_ext; [exact WM|exact E|now rewrite EM]. }
    destruct A as [B|]; [|now apply IH]. apply total_ext. intros k Hk. apply in_seq in Hk. f_equal. apply IH; [assumption|exact E'|].
    rewrite (HA B eq_refl). apply valid1. lia.
Qed.

(** ** Arrays *)
Lemma nd_add_ok (a b c : nd RF) : nd_add a b = Ok c -> nshape a = nshape b /\ nshape c = nshape a /\ forall r, nat_ c r = nat_ a r + nat_ b r.
Proof. unfold nd_add. destruct (shape_eqb_spec (nshape a) (nshape b)); [|discriminate]. now intros [= <-]. Qed.
Lemma reduceM_add vs : forall (a c : nd RF), reduceM nd_add a vs = Ok c ->
  nshape c = nshape a /\ forall r, nat_ c r = nat_ a r + total (map (fun v => nat_ v r) vs).
Proof.
  induction vs as [|v vs IH]; intros a c H; cbn in H.
  - injection H as <-. split; [reflexivity|]. intros r. cbn. ring.
  - destruct (nd_add a v) as [w|] eqn:E; [|discriminate]. cbn in H. apply nd_add_ok in E as (_ & S & V). destruct (IH w c H) as [Sc Vc].
    split; [congruence|]. intros r. rewrite Vc, V. unfold total. cbn. ring.
Qed.
Lemma reduceM_add_total vs (a : nd RF) : (forall v, In v vs -> nshape v = nshape a) -> exists c, reduceM nd_add a vs = Ok c.
Proof.
  revert a. induction vs as [|v vs IH]; intros a H; cbn; [eauto|]. unfold nd_add at 1. rewrite (H v (or_introl eq_refl)), shape_eqb_refl. cbn [bind].
  apply IH. intros w Hw. cbn. apply H. now right.
Qed.

(** ** Evaluations *)
Lemma fbatch_ok f X b : nshape X = b ++ in_shape f ->
  exists v, fbatch f X = Ok v /\ nshape v = b ++ out_shape f /\ forall i o, length i = length b -> nat_ v (i ++ o) = feval f (pt X i) o.
Proof.
  intros E. unfold fbatch. rewrite (batch_shape_ok X b _ E). cbn [bind]. eexists. split; [reflexivity|]. split; [reflexivity|].
  intros i o Hi. cbn [nat_]. now rewrite firstn_app_l, skipn_app_l.
Qed.
Lemma ev_ok e f : nshape (ev_X e) = ev_batch e ++ ev_dom e -> (in_shape f, out_shape f) = (ev_dom e, ev_cod e) ->
  exists v, ev_fun e (out_shape f) (fbatch f) = Ok v /\ nshape v = ev_out e /\
    forall r, valid_index (ev_out e) r -> nat_ v r = feval f (pt (ev_X e) (ev_point e r)) (ev_output e r).
Proof.
  intros E [= Ei Eo]. destruct (fbatch_ok f (ev_X e) (ev_batch e)) as (v & Ev & Sv & Vv); [now rewrite Ei|].
  rewrite Eo in Sv |- *.
  apply (CrossProps.C31_function e (fbatch f) v (ev_batch e) (fun i o => feval f (pt (ev_X e) i) o)); auto.
  - unfold mk_evalf. fold (ev_batch e). rewrite E at 1. rewrite shape_eqb_refl. now destruct e.
  - intros i o Hi _. apply Vv. now apply valid_index_length.
Qed.

(** ** Integrals *)
Lemma int_scaled n a b cod c f : lcall n (LInt a b cod) (FScaled c f) = Err RecursionError.
Proof. induction n as [|n IH]; [reflexivity|]. cbn [lcall int_call lbase_call]. rewrite IH. reflexivity. Qed.
Lemma weak_scaled n m c f : lcall n (LWeak m) (FScaled c f) = Err RecursionError.
Proof. induction n as [|n IH]; [reflexivity|]. cbn [lcall lbase_call]. rewrite IH. reflexivity. Qed.
Lemma smooth_integrable (g : array -> R) a b : smooth [] g -> ex_RInt (fun t => g (fun _ => t)) a b.
Proof.
  intros S. apply (ex_RInt_continuous (V := R_CompleteNormedModule)). intros s _. apply (ex_derive_continuous (fun t => g (fun _ => t))).
  assert (D := S [] (Forall_nil _) (fun _ => 1) (fun _ => s)). cbn [iterD fold_left] in D. eexists.
  apply (is_derive_ext (fun t => (fun u => g (fun _ : index => s + u * 1)) (t - s))).
  { intros t. cbn. f_equal. extensionality j. ring. }
  apply (is_derive_comp (fun u => g (fun _ : index => s + u * 1)) (fun t => t - s)).
  - rewrite Rminus_eq_0. exact D.
  - auto_derive; [exact I|reflexivity].
Qed.
Lemma mapM_forall {A B} (f : A -> result B) l ys (P : A -> B -> Prop) : LfoModel.mapM f l = Ok ys ->
  (forall x y, In x l -> f x = Ok y -> P x y) -> Forall2 P l ys.
Proof.
  revert ys. induction l as [|x l IH]; intros ys H HP; cbn in H; [injection H as <-; constructor|].
  destruct (f x) as [y|] eqn:E; [|discriminate]. cbn in H. destruct (LfoModel.mapM f l) as [zs|] eqn:Ez; [|discriminate].
  injection H as <-. constructor; [apply HP; [now left|exact E]|]. apply IH; [reflexivity|]. intros u v Hu. apply HP. now right.
Qed.
Lemma is_RInt_cst (c a b : R) : is_RInt (fun _ => c) a b (c * (b - a)).
Proof. assert (H := is_RInt_const a b c). unfold scal in H. cbn in H. unfold mult in H. cbn in H. now rewrite Rmult_comm in H. Qed.
Lemma is_RInt_total {A} (h : A -> R -> R) (w : A -> R) a b l : (forall x, In x l -> is_RInt (h x) a b (w x)) ->
  is_RInt (fun t => total (map (fun x => h x t) l)) a b (total (map w l)).
Proof.
  induction l as [|x l IH]; intros H.
  - assert (Z := is_RInt_cst 0 a b). rewrite Rmult_0_l in Z. exact Z.
  - apply (is_RInt_plus (h x) (fun t => total (map (fun x => h x t) l)) a b (w x) (total (map w l))).
    + apply H. now left. + apply IH. intros y Hy. apply H. now right.
Qed.
Lemma Forall2_total {A B} (P : A -> B -> Prop) (w : A -> R) (u : B -> R) l m : Forall2 P l m -> (forall x y, P x y -> w x = u y) ->
  total (map w l) = total (map u m).
Proof. intros H E. induction H as [|x y l m Hxy _ IH]; [reflexivity|]. cbn [map]. change (total (?z :: ?l)) with (z + total l). now rewrite (E x y Hxy), IH. Qed.
Lemma py_sum_ok vs c : py_sum vs = Ok c -> vs <> [] ->
  (forall v, In v vs -> nshape v = nshape c \/ True) /\ (exists v, In v vs /\ nshape c = nshape v) /\ forall r, nat_ c r = total (map (fun v => nat_ v r) vs).
Proof.
  destruct vs as [|v vs]; [congruence|]. intros H _. apply reduceM_add in H as [S V]. split; [auto|]. split; [exists v; split; [now left|exact S]|].
  intros r. rewrite V. cbn. unfold total. ring.
Qed.
Lemma int_sound n a b cod : forall f v, fwf f -> fsm f -> (in_shape f, out_shape f) = ([], cod) -> lcall n (LInt a b cod) f = Ok v ->
  nshape v = cod /\ forall r, valid_index cod r -> is_RInt (fun t => feval f (fun _ => t) r) a b (nat_ v r).
Proof.
  induction n as [|n IH]; intros f v W S [= Ei Eo] H; [discriminate|].
  destruct f as [i o g|i o u|i o|p|c f|gs]; cbn [lcall int_call] in H; cbn [in_shape out_shape] in Ei, Eo.
  - cbn [lbase_call or_else] in H. destruct (shape_eqb_spec cod []) as [->|]; [|discriminate]. cbn [negb] in H. unfold quad in H. cbn [in_shape out_shape] in H.
    subst i o. cbn in H. injection H as <-. split; [reflexivity|]. intros r Hr. assert (r = []) by now inversion Hr. subst r. cbn [nat_].
    apply (RInt_correct (V := R_CompleteNormedModule)). apply (smooth_integrable (fun x => g x [])). apply S. now left.
  - injection H as <-. split; [exact Eo|]. intros r Hr. cbn [feval nat_]. apply is_RInt_cst.
  - injection H as <-. split; [exact Eo|]. intros r Hr. cbn [feval nat_]. apply is_RInt_cst.
  - injection H as <-. split; [exact Eo|]. intros r Hr. cbn [feval nat_]. inversion W; subst. now apply poly_lebesgue_is_RInt.
  - assert (Q := int_scaled (Datatypes.S n) a b cod c f). cbn [lcall int_call] in Q. rewrite Q in H. discriminate.
  - inversion W as [| | | | |g gs' i o Hg]; subst gs. rename gs' into gs.
    assert (B : exists w, lbase_call (lcall n) (LInt a b cod) (FSum (g :: gs)) = Ok w /\ w = v \/
                lbase_call (lcall n) (LInt a b cod) (FSum (g :: gs)) = Err NotImplementedError /\ (if negb (shape_eqb cod []) then Err NotImplementedError else quad a b (FSum (g :: gs))) = Ok v).
    { destruct (lbase_call (lcall n) (LInt a b cod) (FSum (g :: gs))) as [w|[]]; cbn [or_else] in H; try discriminate.
      - injection H as ->. exists v. now left.
      - exists v. now right. }
    destruct B as [w [[B ->]|[_ Q]]].
    + cbn [lbase_call] in B. destruct (LfoModel.mapM (lcall n (LInt a b cod)) (g :: gs)) as [ws|] eqn:M; [|discriminate]. cbn [bind] in B.
      assert (T : Forall2 (fun h w => nshape w = cod /\ forall r, valid_index cod r -> is_RInt (fun t => feval h (fun _ => t) r) a b (nat_ w r)) (g :: gs) ws).
      { apply (mapM_forall _ _ _ _ M). intros h y Hh E. destruct (Hg h Hh) as (Wh & _ & Ih & Oh). destruct (Hg g (or_introl eq_refl)) as (_ & _ & Ig & Og).
        apply (IH h y Wh (proj1 (fsm_sum _) S h Hh)); [rewrite Ih, Oh, <- Ig, <- Og; f_equal; [exact Ei|exact Eo]|exact E]. }
      assert (N : ws <> []) by (inversion T; congruence).
      destruct (py_sum_ok ws v B N) as (_ & [w [Hw Sw]] & V).
      assert (C : nshape w = cod). { clear - T Hw. induction T as [|h y l m [C _] _ IHT]; [destruct Hw|]. destruct Hw as [<-|Hw]; [exact C|now apply IHT]. }
      split; [congruence|]. intros r Hr. rewrite V.
      apply (is_RInt_ext (fun t => total (map (fun h => feval h (fun _ => t) r) (g :: gs)))).
      { intros t _. cbn [feval]. now rewrite reduce_add_fold. }
      assert (TT : total (map (fun h => RInt (fun t => feval h (fun _ => t) r) a b) (g :: gs)) = total (map (fun w : nd RF => nat_ w r : R) ws)).
      { apply (Forall2_total _ _ _ _ _ T). intros h y [_ I]. apply is_RInt_unique. now apply I. }
      change (is_RInt (fun t => total (map (fun h => feval h (fun _ => t) r) (g :: gs))) a b (total (map (fun w : nd RF => nat_ w r : R) ws))). rewrite <- TT.
      apply (is_RInt_total (fun h t => feval h (fun _ => t) r)). intros h Hh.
      assert (X : exists l, is_RInt (fun t => feval h (fun _ => t) r) a b l).
      { clear - T Hh Hr. induction T as [|h' y l m [_ I] _ IHT]; [destruct Hh|]. destruct Hh as [<-|Hh]; [eexists; now apply I|now apply IHT]. }
      destruct X as [l Hl]. now rewrite (is_RInt_unique _ _ _ _ Hl).
    + destruct (shape_eqb_spec cod []) as [->|]; [|discriminate]. cbn [negb] in Q. unfold quad in Q.
      destruct (negb (shape_eqb (in_shape (FSum (g :: gs))) [])); [discriminate|]. destruct (negb (shape_eqb (out_shape (FSum (g :: gs))) [])); [discriminate|].
      injection Q as <-. split; [reflexivity|]. intros r Hr. assert (r = []) by now inversion Hr. subst r. cbn [nat_]. apply (RInt_correct (V := R_CompleteNormedModule)).
      apply (smooth_integrable (fun x => feval (FSum (g :: gs)) x [])).
      assert (FS := feval_smooth _ W S). cbn [in_shape out_shape] in FS. rewrite Ei in FS. apply FS. exact Eo.
Qed.

(** ** Soundness *)
Theorem lcall_sound n : forall L f v, lwf L -> fwf f -> fsm f -> (in_shape f, out_shape f) = l_in L -> lcall n L f = Ok v ->
  nshape v = l_out L /\ forall r, valid_index (l_out L) r -> nat_ v r = lsem L (feval f) r.
Proof.
  induction n as [|n IH]; intros L f v W Wf Sf E H; [discriminate|].
  destruct L as [e|a b cod|m|d c o act|s L|Ls|A L op].
  - inversion W; subst. cbn [lcall] in H. destruct (ev_ok e f) as (w & Ew & Sw & Vw); [assumption|exact E|]. rewrite Ew in H. injection H as <-. split; assumption.
  - destruct (int_sound (S n) a b cod f v Wf Sf E H) as [Sv V]. split; [exact Sv|]. intros r Hr. symmetry. apply is_RInt_unique. now apply V.
  - inversion W.
  - injection H as <-. split; reflexivity.
  - inversion W; subst. cbn [lcall] in H. destruct (lcall n L f) as [w|] eqn:Ew; [|discriminate]. injection H as <-.
    destruct (IH L f w) as [Sw Vw]; try assumption. split; [exact Sw|]. intros r Hr. cbn [nat_ nd_scale nd_map lsem]. rewrite Vw by exact Hr. reflexivity.
  - inversion W as [| | | |L Ms HW HE|]; subst Ls. cbn [lcall] in H. destruct (LfoModel.mapM (fun M => lcall n M f) (L :: Ms)) as [ws|] eqn:M; [|discriminate]. cbn [bind] in H.
    assert (T : Forall2 (fun N w => nshape w = l_out L /\ forall r, valid_index (l_out L) r -> nat_ w r = lsem N (feval f) r) (L :: Ms) ws).
    { apply (mapM_forall _ _ _ _ M). intros N w HN Hw. destruct (HE N HN) as [Ei Eo]. rewrite <- Eo. apply IH; auto. rewrite Ei. exact E. }
    inversion T as [|? w ? ws' [Sw Vw] T' E1 E2]; subst. cbn [reduce] in H. apply reduceM_add in H as [Sv Vv]. cbn [l_out]. split; [exact (eq_trans Sv Sw)|].
    intros r Hr. rewrite Vv. cbn [lsem map]. change (total (?x :: ?l)) with (x + total l). apply f_equal2; [exact (Vw r Hr)|]. symmetry.
    apply (Forall2_total _ _ _ _ _ T'). intros N y [_ V]. symmetry. now apply V.
  - inversion W as [| | | | |A' L' op' WL Hop HA]; subst. cbn [lcall] in H.
    set (G := match op with Some M => osem M (feval f) | None => feval f end).
    destruct (match op with Some P => call n P f | None => Ok f end) as [g|] eqn:Eg; [|discriminate]. cbn [bind] in H.
    assert (X : fwf g /\ fsm g /\ (in_shape g, out_shape g) = l_in L /\ forall x k, valid_index (snd (l_in L)) k -> feval g x k = G x k).
    { unfold G. destruct op as [P|].
      - destruct (Hop P eq_refl) as [WP EP]. cbn [l_in] in E. destruct (call_sound n P f g WP Wf Sf E Eg) as (X1 & X2 & X3 & X4). rewrite EP in X3, X4. auto.
      - injection Eg as <-. cbn [l_in] in E. auto. }
    destruct X as (Wg & Sg & Egs & Vg). destruct (lcall n L g) as [w|] eqn:Ew; [|discriminate]. cbn [bind] in H.
    destruct (IH L g w WL Wg Sg Egs Ew) as [Sw Vw].
    assert (V' : forall r, valid_index (l_out L) r -> nat_ w r = lsem L G r).
    { intros r Hr. rewrite Vw by exact Hr. apply lsem_ext; auto. }
    cbn [l_out lsem]. fold G. destruct A as [B|].
    + assert (EB := HA B eq_refl). rewrite EB in Sw, V'.
      destruct (lin_axis_ok B w [] (ncols B) []) as (u & Eu & Su & Vu); [exact Sw|reflexivity|]. cbn [length] in Eu.
      rewrite Sw in H. cbn [length Nat.sub] in H. rewrite Eu in H. injection H as <-. split; [exact Su|].
      intros r Hr. apply valid1_inv in Hr as (k & -> & Hk). specialize (Vu [] k [] eq_refl eq_refl). cbn [app] in Vu. rewrite Vu. cbn [hd].
      unfold fsum, total. f_equal. apply map_ext_in. intros j Hj. apply in_seq in Hj. cbn. rewrite V' by (apply valid1; lia). reflexivity.
    + injection H as <-. split; [exact Sw|exact V'].
Qed.
