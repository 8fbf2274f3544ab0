(** The arithmetic of linear functionals. *)
From Coq Require Import List Reals Lra Lia Bool Arith FunctionalExtensionality.
From Coquelicot Require Import Coquelicot.
From Verif Require Import Base NdArray NdData BlockModel CovModel CrossModel CrossProofs CrossFun PolyClassModel PolyCalc FunExprModel FunExprProofs
  DiffopModel DiffopSpec LfoModel LfoSpec LfoSmooth LfoProofs LfoSound LfoTotal LfoAlg FunctlModel FunctlSpec FunctlProofs.
Import ListNotations.
Open Scope R_scope.

Lemma l_scale_ok s L : lwf L -> lwf (l_scale s L) /\ l_in (l_scale s L) = l_in L /\ l_out (l_scale s L) = l_out L /\
  forall F r, lsem (l_scale s L) F r = s * lsem L F r.
Proof.
  intros W. destruct L; cbn [l_scale]; try (split; [now constructor|split; [reflexivity|split; reflexivity]]).
  inversion W; subst. split; [now constructor|]. split; [reflexivity|]. split; [reflexivity|]. intros F r. cbn [lsem]. ring.
Qed.
Lemma mk_lsum_inv Ls P : mk_lsum Ls = Ok P -> exists L Ms, Ls = L :: Ms /\ P = LSum Ls /\
  forall M, In M Ls -> l_in M = l_in L /\ l_out M = l_out L.
Proof.
  unfold mk_lsum. destruct Ls as [|L Ms]; [discriminate|]. destruct (forallb _ _) eqn:H1; [|discriminate]. destruct (forallb _ _) eqn:H2 in |- *; [|discriminate].
  destruct (forallb _ _) eqn:H3 in |- *; [|discriminate]. cbn [andb]. intros [= <-]. exists L, Ms. split; [reflexivity|]. split; [reflexivity|].
  intros M HM. rewrite forallb_forall in H1, H2, H3. specialize (H1 M HM). specialize (H2 M HM). specialize (H3 M HM).
  destruct (shape_eqb_spec (fst (l_in M)) (fst (l_in L))) as [E1|]; [|discriminate]. destruct (shape_eqb_spec (snd (l_in M)) (snd (l_in L))) as [E2|]; [|discriminate].
  destruct (shape_eqb_spec (l_out M) (l_out L)) as [E3|]; [|discriminate]. split; [|exact E3]. destruct (l_in M), (l_in L). cbn in E1, E2. congruence.
Qed.
Lemma l_add_ok L M : lwf L -> lwf M -> l_in L = l_in M -> l_out L = l_out M ->
  exists P, l_add L M = Ok P /\ lwf P /\ l_in P = l_in L /\ l_out P = l_out L /\ forall F r, lsem P F r = lsem L F r + lsem M F r.
Proof.
  intros WL WM Ei Eo. exists (LSum [L; M]). split; [|split; [|split; [reflexivity|split; [reflexivity|]]]].
  - unfold l_add, mk_lsum. cbn [forallb]. rewrite Ei, Eo, !shape_eqb_refl. reflexivity.
  - apply lw_sum; intros N [<-|[<-|[]]]; auto.
  - intros F r. cbn [lsem map]. unfold total. cbn. ring.
Qed.
Lemma l_add_err L M : l_in L <> l_in M \/ l_out L <> l_out M -> l_add L M = Err AssertionError.
Proof.
  intros H. destruct (l_add L M) as [P|e] eqn:E.
  - exfalso. unfold l_add in E. destruct (mk_lsum_inv _ _ E) as (L' & Ms & [= <- <-] & _ & HM). destruct (HM M (or_intror (or_introl eq_refl))). destruct H; congruence.
  - unfold l_add, mk_lsum in E. destruct (_ && _); congruence.
Qed.
Lemma mk_lcomp_ok A L op : (forall M, op = Some M -> o_out M = l_in L) -> (forall B, A = Some B -> l_out L = [ncols B]) ->
  mk_lcomp A L op = Ok (LComp A L op).
Proof.
  intros Hop HA. unfold mk_lcomp.
  assert (E1 : match op with Some M => shapes_eqb (o_out M) (l_in L) | None => true end = true).
  { destruct op as [M|]; [|reflexivity]. rewrite (Hop M eq_refl). destruct (shapes_eqb_spec (l_in L) (l_in L)); congruence. }
  rewrite E1. cbn [negb]. destruct A as [B|]; [|reflexivity]. rewrite (HA B eq_refl). cbn [length]. rewrite Nat.eqb_refl, shape_eqb_refl. reflexivity.
Qed.
Lemma mk_lcomp_inv A L op P : mk_lcomp A L op = Ok P -> P = LComp A L op /\
  (forall M, op = Some M -> o_out M = l_in L) /\ (forall B, A = Some B -> l_out L = [ncols B]).
Proof.
  unfold mk_lcomp. destruct (match op with Some M => shapes_eqb (o_out M) (l_in L) | None => true end) eqn:E1; [|discriminate].
  destruct (match A with Some A => (length (l_out L) =? 1)%nat && shape_eqb (l_out L) [ncols A] | None => true end) eqn:E2; [|discriminate].
  intros [= <-]. split; [reflexivity|]. split.
  - intros M ->. destruct (shapes_eqb_spec (o_out M) (l_in L)); congruence.
  - intros B ->. apply andb_true_iff in E2 as [_ E2]. destruct (shape_eqb_spec (l_out L) [ncols B]); congruence.
Qed.
Lemma mk_lcomp_err A L op e : mk_lcomp A L op = Err e -> e = AssertionError.
Proof. unfold mk_lcomp. destruct (negb _); [congruence|]. destruct (negb _); congruence. Qed.

(** ** Operators before a functional *)
Lemma l_matmul_ok L M : lwf L -> wfo M -> o_out M = l_in L ->
  exists P, l_matmul L M = Ok P /\ lwf P /\ l_in P = o_in M /\ l_out P = l_out L /\
    forall F, vsmooth (o_in M) F -> forall r, valid_index (l_out L) r -> lsem P F r = lsem L (osem M F) r.
Proof.
  intros WL WM E.
  assert (D : exists P, mk_lcomp None L (Some M) = Ok P /\ lwf P /\ l_in P = o_in M /\ l_out P = l_out L /\
    forall F, vsmooth (o_in M) F -> forall r, valid_index (l_out L) r -> lsem P F r = lsem L (osem M F) r).
  { exists (LComp None L (Some M)). split; [apply mk_lcomp_ok; intros; congruence|]. split; [|split; [reflexivity|split; [reflexivity|reflexivity]]].
    apply lw_comp; [exact WL| |discriminate]. intros N [= <-]. auto. }
  destruct L as [e|a b cod|n|d c o act|s L|Ls|A L op]; try exact D. clear D. inversion WL as [| | | | |? ? ? WL' Hop HA]; subst. cbn [l_matmul]. destruct op as [M'|].
  - destruct (Hop M' eq_refl) as [WM' EM']. cbn [l_in] in E.
    destruct (o_matmul_ok M' WM' M WM) as (P & HP & WP & IP & OP & VP); [congruence|]. rewrite HP. cbn [bind].
    exists (LComp A L (Some P)). split; [apply mk_lcomp_ok; [intros N [= <-]; congruence|exact HA]|]. split; [|split; [exact IP|split; [reflexivity|]]].
    + apply lw_comp; [exact WL'| |exact HA]. intros N [= <-]. split; [exact WP|congruence].
    + intros F SF r Hr. cbn [lsem l_out] in *.
      assert (X : forall q, valid_index (l_out L) q -> lsem L (osem P F) q = lsem L (osem M' (osem M F)) q).
      { intros q Hq. apply lsem_ext; [exact WL'| |exact Hq]. intros x k Hk. apply VP; [exact SF|]. rewrite EM'. exact Hk. }
      destruct A as [B|]; [|now apply X]. apply total_ext. intros k Hk. apply in_seq in Hk. f_equal. apply X. rewrite (HA B eq_refl). apply valid1. lia.
  - cbn [l_in] in E. exists (LComp A L (Some M)). split; [apply mk_lcomp_ok; [intros N [= <-]; exact E|exact HA]|]. split; [|split; [reflexivity|split; [reflexivity|reflexivity]]].
    apply lw_comp; [exact WL'| |exact HA]. intros N [= <-]. auto.
Qed.
Lemma l_matmul_err L M : lwf L -> wfo M -> o_out M <> l_in L -> l_matmul L M = Err AssertionError.
Proof.
  intros WL WM E.
  assert (D : forall A L', l_in L' <> o_out M -> mk_lcomp A L' (Some M) = Err AssertionError).
  { intros A L' N. destruct (mk_lcomp A L' (Some M)) as [P|e] eqn:X; [|f_equal; exact (mk_lcomp_err _ _ _ _ X)].
    apply mk_lcomp_inv in X as (_ & X & _). specialize (X M eq_refl). congruence. }
  destruct L as [e|a b cod|n|d c o act|s L|Ls|A L op]; try (apply D; congruence). inversion WL as [| | | | |? ? ? WL' Hop HA]; subst. cbn [l_matmul]. destruct op as [M'|].
  - cbn [l_in] in E. rewrite (o_matmul_err M' M WM); [reflexivity|congruence].
  - cbn [l_in] in E. apply D. congruence.
Qed.

(** ** Matrices after a functional *)
Lemma total_swap {A B} (h : A -> B -> R) l m : total (map (fun x => total (map (fun y => h x y) m)) l) = total (map (fun y => total (map (fun x => h x y) l)) m).
Proof.
  induction l as [|x l IH].
  - symmetry. apply total_zero. reflexivity.
  - cbn [map]. change (total (?z :: ?t)) with (z + total t). rewrite IH, <- total_plus. reflexivity.
Qed.
Lemma mat_mul_total (A B C : @mat RF) i j : mat_mul A B = Ok C -> entry C i j = total (map (fun k => entry A i k * entry B k j) (seq 0 (ncols A))).
Proof. unfold mat_mul. destruct (ncols A =? nrows B)%nat; [|discriminate]. now intros [= <-]. Qed.
Lemma l_rmatmul_ok A L : lwf L -> l_out L = [ncols A] ->
  exists P, l_rmatmul A L = Ok P /\ lwf P /\ l_in P = l_in L /\ l_out P = [nrows A] /\
    forall F i, lsem P F [i] = total (map (fun k => entry A i k * lsem L F [k]) (seq 0 (ncols A))).
Proof.
  intros WL E.
  assert (D : exists P, mk_lcomp (Some A) L None = Ok P /\ lwf P /\ l_in P = l_in L /\ l_out P = [nrows A] /\
    forall F i, lsem P F [i] = total (map (fun k => entry A i k * lsem L F [k]) (seq 0 (ncols A)))).
  { exists (LComp (Some A) L None). split; [apply mk_lcomp_ok; [discriminate|intros B [= <-]; exact E]|]. split; [|split; [reflexivity|split; [reflexivity|reflexivity]]].
    apply lw_comp; [exact WL|discriminate|]. intros B [= <-]. exact E. }
  destruct L as [e|a b cod|n|d c o act|s L|Ls|A' L op]; try exact D. clear D. inversion WL as [| | | | |? ? ? WL' Hop HA]; subst. cbn [l_rmatmul]. destruct A' as [B|].
  - cbn [l_out] in E. injection E as E. destruct (mat_mul A B) as [C|] eqn:EC.
    2:{ unfold mat_mul in EC. rewrite E, Nat.eqb_refl in EC. discriminate. }
    assert (SC : nrows C = nrows A /\ ncols C = ncols B). { unfold mat_mul in EC. destruct (ncols A =? nrows B)%nat; [|discriminate]. now injection EC as <-. }
    destruct SC as [RC CC]. cbn [bind]. exists (LComp (Some C) L op). split; [apply mk_lcomp_ok; [intros M HM; now apply Hop|intros B' [= <-]; rewrite CC; now apply HA]|].
    split; [|split; [reflexivity|split; [cbn; now rewrite RC|]]].
    + apply lw_comp; [exact WL'|exact Hop|]. intros B' [= <-]. rewrite CC. now apply HA.
    + intros F i. cbn [lsem hd]. set (G := match op with Some M => osem M F | None => F end). rewrite CC.
      transitivity (total (map (fun j => total (map (fun k => entry A i k * (entry B k j * lsem L G [j])) (seq 0 (ncols A)))) (seq 0 (ncols B)))).
      * apply total_ext. intros j _. rewrite (mat_mul_total A B C i j EC). rewrite Rmult_comm, <- total_mult. apply total_ext. intros k _. ring.
      * rewrite total_swap. apply total_ext. intros k _. rewrite <- total_mult. reflexivity.
  - cbn [l_out] in E. exists (LComp (Some A) L op). split; [apply mk_lcomp_ok; [intros M HM; now apply Hop|intros B [= <-]; exact E]|]. split; [|split; [reflexivity|split; [reflexivity|reflexivity]]].
    apply lw_comp; [exact WL'|exact Hop|]. intros B [= <-]. exact E.
Qed.
Lemma l_rmatmul_err A L : lwf L -> l_out L <> [ncols A] ->
  l_rmatmul A L = Err (match L with LComp (Some _) _ _ => ValueError | _ => AssertionError end).
Proof.
  intros WL E.
  assert (D : forall L' op, l_out L' <> [ncols A] -> mk_lcomp (Some A) L' op = Err AssertionError).
  { intros L' op N. destruct (mk_lcomp (Some A) L' op) as [P|e] eqn:X; [|f_equal; exact (mk_lcomp_err _ _ _ _ X)].
    apply mk_lcomp_inv in X as (_ & _ & X). specialize (X A eq_refl). congruence. }
  destruct L as [e|a b cod|n|d c o act|s L|Ls|A' L op]; try (apply D; exact E). cbn [l_rmatmul]. destruct A' as [B|]; [|apply D; exact E].
  cbn [l_out] in E. unfold mat_mul. destruct (Nat.eqb_spec (ncols A) (nrows B)) as [X|X]; [exfalso; apply E; now rewrite X|reflexivity].
Qed.

(** ** Expressions *)
Lemma omeaning_smooth M i m F : oty M i m -> vsmooth i F -> vsmooth m (omeaning M F).
Proof.
  intros T SF. destruct (omeaning_value M i m T) as (P & _ & WP & IP & OP & VP). intros O.
  assert (S2 : vsmooth m (osem P F)) by (rewrite <- OP; apply osem_smooth; [exact WP|rewrite IP; exact SF]).
  replace (fun y => omeaning M F y []) with (fun y => osem P F y []); [exact (S2 O)|].
  extensionality y. apply VP; [exact SF|]. rewrite O. constructor.
Qed.
Lemma mk_evalf_ok dirac dom cod (X : nd RF) b : nshape X = b ++ dom ->
  mk_evalf dirac dom cod X = Ok (mkevalf dirac dom cod X) /\ ev_batch (mkevalf dirac dom cod X) = b.
Proof.
  intros E. assert (B : firstn (length (nshape X) - length dom) (nshape X) = b).
  { rewrite E, app_length. replace (length b + length dom - length dom)%nat with (length b) by lia. now apply firstn_app_l. }
  split; [|exact B]. unfold mk_evalf. rewrite B, <- E, shape_eqb_refl. reflexivity.
Qed.
Theorem fbuild_ok e i o : fty e i o -> exists L, fbuild e = Ok L /\ lwf L /\ l_in L = i /\ l_out L = o /\
  forall F, vsmooth i F -> forall r, valid_index o r -> lsem L F r = fmeaning e F r.
Proof.
  assert (EV : forall dirac dom cod (X : nd RF) b, nshape X = b ++ dom ->
    lwf (LEv (mkevalf dirac dom cod X)) /\ ev_out (mkevalf dirac dom cod X) = (if dirac then b ++ cod else cod ++ b) /\
    forall F r, length r = length (b ++ cod) -> lsem (LEv (mkevalf dirac dom cod X)) F r =
      (if dirac then F (point_at X (firstn (length r - length cod) r)) (skipn (length r - length cod) r)
       else F (point_at X (skipn (length cod) r)) (firstn (length cod) r))).
  { intros dirac dom cod X b E. destruct (mk_evalf_ok dirac dom cod X b E) as [_ B]. split; [|split].
    - constructor. rewrite B. exact E.
    - unfold ev_out. rewrite B. reflexivity.
    - intros F r Hr. cbn [lsem]. unfold ev_point, ev_output. rewrite B. cbn [ev_dirac ev_cod ev_X]. rewrite app_length in Hr.
      destruct dirac; [|reflexivity]. replace (length r - length cod)%nat with (length b) by lia. reflexivity. }
  induction 1 as [dom cod X b E|dom cod X b E|a b cod|dom cod out act HA|s e i o H IH|e i o H IH|e1 e2 i o H1 IH1 H2 IH2|e1 e2 i o H1 IH1 H2 IH2|A e i H IH|e M i m o H IH T|M X b i dom cod T E]; cbn [fbuild].
  - destruct (EV true dom cod X b E) as (W & O & V). destruct (mk_evalf_ok true dom cod X b E) as [-> _]. cbn [bind]. eexists. split; [reflexivity|]. split; [exact W|].
    split; [reflexivity|]. split; [exact O|]. intros F _ r Hr. apply V. now apply valid_index_length.
  - destruct (EV false dom cod X b E) as (W & O & V). destruct (mk_evalf_ok false dom cod X b E) as [-> _]. cbn [bind]. eexists. split; [reflexivity|]. split; [exact W|].
    split; [reflexivity|]. split; [exact O|]. intros F _ r Hr. apply V. apply valid_index_length in Hr. rewrite Hr, !app_length. lia.
  - eexists. split; [reflexivity|]. split; [constructor|]. repeat split.
  - eexists. split; [reflexivity|]. split; [now constructor|]. repeat split.
  - destruct IH as (L & -> & W & Ei & Eo & V). cbn [bind]. destruct (l_scale_ok s L W) as (W' & Ei' & Eo' & V').
    exists (l_scale s L). split; [reflexivity|]. split; [exact W'|]. split; [congruence|]. split; [congruence|]. intros F SF r Hr. rewrite V', V by assumption. reflexivity.
  - destruct IH as (L & -> & W & Ei & Eo & V). cbn [bind]. unfold l_neg. destruct (l_scale_ok (-1) L W) as (W' & Ei' & Eo' & V').
    exists (l_scale (-1) L). split; [reflexivity|]. split; [exact W'|]. split; [congruence|]. split; [congruence|]. intros F SF r Hr. rewrite V', V by assumption. cbn [fmeaning]. ring.
  - destruct IH1 as (L & -> & W1 & Ei1 & Eo1 & V1), IH2 as (M & -> & W2 & Ei2 & Eo2 & V2). cbn [bind].
    destruct (l_add_ok L M W1 W2) as (P & HP & WP & EiP & EoP & VP); try congruence.
    exists P. split; [exact HP|]. split; [exact WP|]. split; [congruence|]. split; [congruence|]. intros F SF r Hr. rewrite VP, V1, V2 by assumption. reflexivity.
  - destruct IH1 as (L & -> & W1 & Ei1 & Eo1 & V1), IH2 as (M & -> & W2 & Ei2 & Eo2 & V2). cbn [bind]. unfold l_sub, l_neg.
    destruct (l_scale_ok (-1) M W2) as (W2' & Ei2' & Eo2' & V2').
    destruct (l_add_ok L (l_scale (-1) M) W1 W2') as (P & HP & WP & EiP & EoP & VP); try congruence.
    exists P. split; [exact HP|]. split; [exact WP|]. split; [congruence|]. split; [congruence|]. intros F SF r Hr. rewrite VP, V2', V1, V2 by assumption. cbn [fmeaning]. ring.
  - destruct IH as (L & -> & W & Ei & Eo & V). cbn [bind]. destruct (l_rmatmul_ok A L W Eo) as (P & HP & WP & EiP & EoP & VP).
    exists P. split; [exact HP|]. split; [exact WP|]. split; [congruence|]. split; [exact EoP|]. intros F SF r Hr. apply valid1_inv in Hr as (k & -> & Hk). rewrite VP. cbn [fmeaning hd].
    apply total_ext. intros j Hj. apply in_seq in Hj. f_equal. apply V; [exact SF|]. apply valid1. lia.
  - destruct IH as (L & -> & W & Ei & Eo & V). destruct (omeaning_value M i m T) as (Q & -> & WQ & IQ & OQ & VQ). cbn [bind].
    destruct (l_matmul_ok L Q W WQ) as (P & HP & WP & EiP & EoP & VP); [congruence|].
    exists P. split; [exact HP|]. split; [exact WP|]. split; [congruence|]. split; [congruence|]. intros F SF r Hr. rewrite VP; [|rewrite IQ; exact SF|rewrite Eo; exact Hr]. cbn [fmeaning].
    rewrite <- V; [|now apply (omeaning_smooth M i m)|exact Hr]. apply lsem_ext; [exact W| |rewrite Eo; exact Hr]. intros x k Hk. apply VQ; [exact SF|]. rewrite <- Ei. exact Hk.
  - destruct (omeaning_value M i (dom, cod) T) as (Q & -> & WQ & IQ & OQ & VQ). cbn [bind]. unfold to_linfunctl. rewrite OQ. cbn [fst snd].
    destruct (EV false dom cod X b E) as (W & O & V). destruct (mk_evalf_ok false dom cod X b E) as [-> _]. cbn [bind].
    destruct (l_matmul_ok (LEv (mkevalf false dom cod X)) Q W WQ) as (P & HP & WP & EiP & EoP & VP); [exact OQ|].
    exists P. split; [exact HP|]. split; [exact WP|]. split; [congruence|]. split; [rewrite EoP; exact O|]. intros F SF r Hr. rewrite VP; [|rewrite IQ; exact SF|cbn [l_out]; rewrite O; exact Hr].
    rewrite V by (apply valid_index_length in Hr; rewrite Hr, !app_length; lia). cbn [fmeaning]. apply VQ; [exact SF|].
    apply valid_index_app_inv in Hr as (q & s & -> & Hq & Hs). rewrite firstn_app_l by now apply valid_index_length. exact Hq.
Qed.
