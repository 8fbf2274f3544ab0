(** Lemmas about Galerkin covariance functions. *)
From Coq Require Import List Arith Lia Bool Reals Lra Ring.
From Verif Require Import Base NdArray NdData BlockModel CovModel CovSpec CovProofs CrossModel CrossSpec CrossProofs CrossKern CrossFun CrossViews
  ParamModel ParamSpec ParamProofs GalerkinModel GalerkinSpec.
Import ListNotations.

(** ** The decomposition *)
Section Alg.
Context {F : fops} (LF : flaws F) {X : Type}.
Add Field FField : (fl_field F LF).
Notation "x + y" := (fadd x y). Notation "x * y" := (fmul x y). Notation "x - y" := (fsub x y).
Variables (n : nat) (phi : X -> nat -> F) (D : (X -> F) -> Prop) (P : (X -> F) -> nat -> F) (k : X -> X -> F).
Hypothesis (LP : linear_on D n P).

Lemma lin_ext f g : D g -> (forall x, f x = g x) -> D f /\ forall i, (i < n)%nat -> P f i = P g i.
Proof.
  intros Hg E. destruct (LP [(f1, g)] f) as [Df V].
  - intros p [<-|[]]. exact Hg.
  - intros x. cbn. rewrite E. ring.
  - split; [exact Df|]. intros i Hi. rewrite (V i Hi). cbn. ring.
Qed.
Lemma lin_sum (c : nat -> F) (f : nat -> X -> F) m h : (forall j, (j < m)%nat -> D (f j)) ->
  (forall x, h x = fsum (map (fun j => c j * f j x) (seq 0 m))) ->
  D h /\ forall i, (i < n)%nat -> P h i = fsum (map (fun j => c j * P (f j) i) (seq 0 m)).
Proof.
  intros Df E. destruct (LP (map (fun j => (c j, f j)) (seq 0 m)) h) as [Dh V].
  - intros p Hp. apply in_map_iff in Hp as [j [<- Hj]]. apply in_seq in Hj. apply Df. lia.
  - intros x. rewrite E, map_map. reflexivity.
  - split; [exact Dh|]. intros i Hi. rewrite (V i Hi), map_map. reflexivity.
Qed.
Lemma lin_add f g h : D f -> D g -> (forall x, h x = f x + g x) -> D h /\ forall i, (i < n)%nat -> P h i = P f i + P g i.
Proof.
  intros Df Dg E. destruct (LP [(f1, f); (f1, g)] h) as [Dh V].
  - intros p [<-|[<-|[]]]; assumption.
  - intros x. rewrite E. cbn. ring.
  - split; [exact Dh|]. intros i Hi. rewrite (V i Hi). cbn. ring.
Qed.
Lemma lin_sub f g h : D f -> D g -> (forall x, h x = f x - g x) -> D h /\ forall i, (i < n)%nat -> P h i = P f i - P g i.
Proof.
  intros Df Dg E. destruct (LP [(f1, f); (fopp f1, g)] h) as [Dh V].
  - intros p [<-|[<-|[]]]; assumption.
  - intros x. rewrite E. cbn. ring.
  - split; [exact Dh|]. intros i Hi. rewrite (V i Hi). cbn. ring.
Qed.

Definition kP (x : X) (j : nat) : F := P (k x) j.
Definition PkP (i j : nat) : F := P (fun x => kP x j) i.
(** What the code computes. *)
Definition gvalue (x y : X) : F :=
  bilinear n PkP (phi x) (phi y) + k x y - dot n (kP x) (phi y) - dot n (kP y) (phi x) + bilinear n PkP (phi x) (phi y).

Hypothesis (KS : forall x y, k x y = k y x) (DK : forall x, D (k x)) (DKP : forall j, (j < n)%nat -> D (fun x => kP x j)).

Lemma both_project x y : both (project n phi P) k x y = bilinear n PkP (phi x) (phi y).
Proof.
  unfold both. rewrite (bilinear_dot LF). unfold project at 1, dot. apply sum_ext_seq. intros i Hi. f_equal.
  destruct (lin_sum (fun j => phi y j) (fun j x => kP x j) n (fun x' => project n phi P (k x') y)) as [_ V]; [exact DKP|reflexivity|].
  rewrite (V i Hi). apply sum_ext. intros j _. unfold PkP. ring.
Qed.
Lemma both_residual x y : both (residual n phi P) k x y =
  k x y - dot n (kP x) (phi y) - dot n (kP y) (phi x) + bilinear n PkP (phi x) (phi y).
Proof.
  unfold both. unfold residual at 1. rewrite (bilinear_dot LF).
  assert (E1 : residual n phi P (k x) y = k x y - dot n (kP x) (phi y)).
  { unfold residual, project. f_equal. rewrite (dot_sym LF). reflexivity. }
  rewrite E1. unfold project.
  destruct (lin_sum (fun j => phi y j) (fun j x => kP x j) n (fun x' => project n phi P (k x') y)) as [D1 V1]; [exact DKP|reflexivity|].
  destruct (lin_ext (fun x' => k x' y) (k y)) as [D2 V2]; [apply DK|intros x'; apply KS|].
  destruct (lin_sub (fun x' => k x' y) (fun x' => project n phi P (k x') y) (fun x' => residual n phi P (k x') y) D2 D1) as [_ V3]; [reflexivity|].
  transitivity (k x y - dot n (kP x) (phi y) - (dot n (kP y) (phi x) - dot n (phi x) (fun i => fsum (map (fun l => PkP i l * phi y l) (seq 0 n)))));
    [|ring]. f_equal. rewrite (dot_sym LF n (kP y)). unfold dot. rewrite <- (sum_sub LF). apply sum_ext_seq. intros i Hi.
  rewrite (V3 i Hi), (V2 i Hi), (V1 i Hi). change (P (k y) i) with (kP y i).
  transitivity (phi x i * (kP y i - fsum (map (fun l => PkP i l * phi y l) (seq 0 n)))); [|ring]. f_equal. f_equal.
  apply sum_ext. intros l _. unfold PkP. ring.
Qed.
Lemma decoupled_value x y : decoupled n phi P k x y = gvalue x y.
Proof. unfold decoupled, gvalue. rewrite both_project, both_residual. ring. Qed.
Lemma gvalue_sym : (forall i j, (i < n)%nat -> (j < n)%nat -> PkP i j = PkP j i) -> forall x y, gvalue x y = gvalue y x.
Proof. intros S x y. unfold gvalue. rewrite (bilinear_sym LF n PkP (phi x)) by exact S. rewrite KS. ring. Qed.

Hypothesis (RP : reproduces n phi P) (DP : forall j, (j < n)%nat -> D (fun x => phi x j)).
Lemma project_basis (c : nat -> F) h : (forall x, h x = fsum (map (fun j => c j * phi x j) (seq 0 n))) -> D h /\ forall i, (i < n)%nat -> P h i = c i.
Proof.
  intros E. destruct (lin_sum c (fun j x => phi x j) n h DP E) as [Dh V]. split; [exact Dh|]. intros i Hi. rewrite (V i Hi).
  rewrite <- (sum_delta LF n i c Hi). apply sum_ext_seq. intros j Hj. rewrite (RP i j Hi Hj). now rewrite Nat.eqb_sym.
Qed.
(** The projection of the new covariance function in its first argument. *)
Lemma project_first y : D (fun x => gvalue x y) /\ forall i, (i < n)%nat -> P (fun x => gvalue x y) i = fsum (map (fun j => PkP i j * phi y j) (seq 0 n)).
Proof.
  destruct (project_basis (fun i => fsum (map (fun j => PkP i j * phi y j) (seq 0 n))) (fun x => bilinear n PkP (phi x) (phi y))) as [D1 V1].
  { intros x. rewrite (bilinear_dot LF). unfold dot. apply sum_ext. intros i _. ring. }
  destruct (lin_ext (fun x => k x y) (k y)) as [D2 V2]; [apply DK|intros x'; apply KS|].
  destruct (lin_sum (fun j => phi y j) (fun j x => kP x j) n (fun x => dot n (kP x) (phi y))) as [D3 V3]; [exact DKP| |].
  { intros x. rewrite (dot_sym LF). reflexivity. }
  destruct (project_basis (kP y) (fun x => dot n (kP y) (phi x))) as [D4 V4]; [reflexivity|].
  destruct (lin_add _ _ (fun x => bilinear n PkP (phi x) (phi y) + k x y) D1 D2) as [D5 V5]; [reflexivity|].
  destruct (lin_sub _ _ (fun x => bilinear n PkP (phi x) (phi y) + k x y - dot n (kP x) (phi y)) D5 D3) as [D6 V6]; [reflexivity|].
  destruct (lin_sub _ _ (fun x => bilinear n PkP (phi x) (phi y) + k x y - dot n (kP x) (phi y) - dot n (kP y) (phi x)) D6 D4) as [D7 V7]; [reflexivity|].
  destruct (lin_add _ _ (fun x => gvalue x y) D7 D1) as [D8 V8]; [reflexivity|]. split; [exact D8|]. intros i Hi.
  rewrite (V8 i Hi), (V7 i Hi), (V6 i Hi), (V5 i Hi), (V1 i Hi), (V2 i Hi), (V3 i Hi), (V4 i Hi). change (P (k y) i) with (kP y i).
  assert (E : fsum (map (fun j => phi y j * P (fun x => kP x j) i) (seq 0 n)) = fsum (map (fun j => PkP i j * phi y j) (seq 0 n))).
  { apply sum_ext. intros j _. unfold PkP. ring. }
  rewrite E. ring.
Qed.
End Alg.

(** ** Arrays *)
Section Arr.
Context {F : fops} (LF : flaws F).
Lemma pleaf_call insh n (v : point F -> index -> index -> F) x b : nshape x = b ++ insh ->
  exists a, p_call (PLeaf insh [] [n] false v) x = Ok a /\ nshape a = b ++ [n] /\ forall i j, valid_index b i -> nat_ a (i ++ [j]) = v (pt x i) [] [j].
Proof.
  intros E. cbn [p_call p_in]. rewrite (batch_shape_ok _ _ _ E). cbn [bind]. unfold p_finish. cbn [nshape p_rev p_out p_rv]. rewrite shape_eqb_refl.
  eexists. split; [reflexivity|]. split; [reflexivity|]. intros i j Hi. apply valid_index_length in Hi. cbn [nat_].
  now rewrite firstn_app_l, skipn_app_l.
Qed.
Lemma nd_add_is (a b : nd F) s g h : array_is a s g -> array_is b s h -> exists r, nd_add a b = Ok r /\ array_is r s (fun i => fadd (g i) (h i)).
Proof.
  intros [Sa Va] [Sb Vb]. unfold nd_add. rewrite Sa, Sb, shape_eqb_refl. eexists. split; [reflexivity|]. split; [exact Sa|].
  intros i Hi. cbn. now rewrite Va, Vb.
Qed.
Lemma nd_sub_is (a b : nd F) s g h : array_is a s g -> array_is b s h -> exists r, nd_sub a b = Ok r /\ array_is r s (fun i => fsub (g i) (h i)).
Proof.
  intros [Sa Va] [Sb Vb]. unfold nd_sub. rewrite Sa, Sb, shape_eqb_refl. eexists. split; [reflexivity|]. split; [exact Sa|].
  intros i Hi. cbn. now rewrite Va, Vb.
Qed.
Lemma em_call_ok insh n v (f : feature F) x0 x1 b0 b1 b : ft_in f = insh -> ft_out f = [n] -> plain_features f ->
  points insh x0 x1 b0 b1 -> broadcast_shapes b0 b1 = Ok b ->
  exists a, em_call (PLeaf insh [] [n] false v) f x0 x1 = Ok a /\
    array_is a b (fun i => dot n (fun k => v (pt x0 (operand_index b0 i)) [] [k]) (fun k => ft_val f (pt (second x0 x1) (operand_index b1 i)) [k])).
Proof.
  intros EI O P [E0 E1] B. apply (scalar_call_ok _ _ _ _ b0 b1); [now split|exact B|]. unfold em_eval. cbn [p_rev].
  destruct (pleaf_call insh n v x0 b0 E0) as [a0 [-> [S0 V0]]]. cbn [bind]. rewrite (plain_call f b1); [|exact P|now rewrite EI]. cbn [bind].
  destruct (inner_last_ok a0 (ft_array f b1 (second x0 x1)) b0 b1 b n) as [r [-> [Sr Vr]]]; [exact S0|unfold ft_array; cbn; now rewrite O|exact B|].
  exists r. split; [reflexivity|]. split; [exact Sr|]. intros i Hi. rewrite Vr by exact Hi.
  pose proof (operand_valid _ _ _ _ B Hi) as W0. pose proof (operand_valid_r _ _ _ _ B Hi) as W1.
  apply dot_ext; intros k Hk; [now apply V0|now apply ft_array_at].
Qed.
(** The reversed orientation, for at most one batch axis. *)
Lemma em_call_rev insh n v (f : feature F) x0 x1 b0 b1 b : ft_in f = insh -> ft_out f = [n] -> plain_features f -> length b1 <= 1 ->
  points insh x0 x1 b0 b1 -> broadcast_shapes b0 b1 = Ok b ->
  exists a, em_call (PLeaf insh [] [n] true v) f x0 x1 = Ok a /\
    array_is a b (fun i => dot n (fun k => ft_val f (pt x0 (operand_index b0 i)) [k]) (fun k => v (pt (second x0 x1) (operand_index b1 i)) [] [k])).
Proof.
  intros EI O P L1 [E0 E1] B. apply (scalar_call_ok _ _ _ _ b0 b1); [now split|exact B|]. unfold em_eval. cbn [p_rev].
  rewrite (plain_call f b0); [|exact P|now rewrite EI]. cbn [bind p_call p_in]. rewrite (batch_shape_ok _ _ _ E1). cbn [bind]. unfold p_finish.
  cbn [nshape p_rev p_out p_rv]. rewrite shape_eqb_refl. cbn [bind].
  match goal with |- context [inner_last _ (np_T ?m)] => set (M := m) end.
  assert (RB : rev b1 = b1) by (destruct b1 as [|d [|d' b1']]; cbn in *; (reflexivity || lia)).
  destruct (inner_last_ok (ft_array f b0 x0) (np_T M) b0 b1 b n) as [r [-> [Sr Vr]]];
    [unfold ft_array; cbn; now rewrite O|unfold np_T, M; cbn [nshape p_layout]; rewrite app_nil_r; cbn [app rev]; now rewrite RB|exact B|].
  exists r. split; [reflexivity|]. split; [exact Sr|]. intros i Hi. rewrite Vr by exact Hi.
  pose proof (operand_valid _ _ _ _ B Hi) as W0. pose proof (operand_valid_r _ _ _ _ B Hi) as W1.
  apply dot_ext; intros k Hk; [now apply ft_array_at|]. set (j := operand_index b1 i) in *.
  assert (Lj : length j = length b1) by now apply valid_index_length.
  assert (RJ : rev j = j) by (destruct j as [|c [|c' j']]; cbn in *; (reflexivity || lia)).
  unfold np_T, M. cbn [nat_]. rewrite rev_app_distr, RJ. cbn [rev app length firstn skipn].
  rewrite firstn_all2 by lia. now rewrite skipn_all2 by lia.
Qed.

(** A projection fitting a scalar covariance function. *)
Definition fits (insh : shape) (P : projection F) : Prop :=
  pj_in P = insh /\ ft_in (pj_basis P) = insh /\ ft_out (pj_basis P) = [pj_n P] /\ plain_features (pj_basis P).
(** Its basis functions and action. *)
Definition basis_of (P : projection F) : point F -> nat -> F := fun x j => ft_val (pj_basis P) x [j].
Lemma gal_init_ok insh v (P : projection F) : fits insh P ->
  exists c, pj_PkPa P v = Ok c /\ shows c [pj_n P] [pj_n P] (fun i j => PkP (pj_fun P) v (nth 0 i 0) (nth 0 j 0)) /\
    gal_init insh v P = Ok (mkgal insh v P (PLeaf insh [] [pj_n P] false (fun x _ r => kP (pj_fun P) v x (nth 0 r 0))) c (mkpcov (pj_basis P) c)).
Proof.
  intros [EI [EF [EO EP]]]. set (n := pj_n P). unfold gal_init, pj_kPa, pj_validate. cbn [Nat.ltb Nat.leb]. rewrite EI, shape_eqb_refl. cbn [bind].
  unfold pj_PkPa. fold n. destruct (array_cov_shows (Nd [n; n] (fun l => pj_fun P (fun x => pj_fun P (v x) (nth 1 l 0)) (nth 0 l 0))) [n] [n] eq_refl) as [c [Ec Hc]].
  exists c. rewrite Ec. cbn [bind]. split; [reflexivity|]. split.
  - apply (shows_ext _ _ _ _ _ Hc). intros i j Hi Hj. inversion Hi as [|a ? t ? Ha Ht]; subst. inversion Ht; subst. inversion Hj as [|b ? t' ? Hb Ht']; subst.
    inversion Ht'; subst. reflexivity.
  - unfold mk_pcov. destruct Hc as [_ [E1 _]]. rewrite E1, EO. fold n. rewrite shape_eqb_refl. reflexivity.
Qed.
Lemma gal_call_ok insh v (P : projection F) g x0 x1 b0 b1 b : fits insh P -> gal_init insh v P = Ok g ->
  points insh x0 x1 b0 b1 -> broadcast_shapes b0 b1 = Ok b ->
  exists a, gal_call g x0 x1 = Ok a /\
    array_is a b (fun i => gvalue (pj_n P) (basis_of P) (pj_fun P) v (pt x0 (operand_index b0 i)) (pt (second x0 x1) (operand_index b1 i))).
Proof.
  intros HF HG H B. destruct (gal_init_ok insh v P HF) as [c [_ [Hc EG]]]. rewrite EG in HG. injection HG as <-. clear EG.
  destruct HF as [EI [EF [EO EP]]]. apply (scalar_call_ok _ _ _ _ b0 b1); [exact H|exact B|]. unfold gal_eval. cbn [g_in g_k g_P g_kPa g_param].
  assert (H' : points (ft_in (pj_basis P)) x0 x1 b0 b1) by now rewrite EF.
  destruct (scalar_call_ok (ft_in (pj_basis P)) (pcov_eval (mkpcov (pj_basis P) c)) x0 x1 b0 b1 b _ H' B
    (pcov_eval_ok LF (pj_basis P) c (pj_n P) _ x0 x1 b0 b1 b EP EO Hc H' B)) as [a1 [E1 I1]].
  unfold pcov_call. cbn [pc_basis]. rewrite E1. cbn [bind].
  destruct (leaf_call insh [] [] (fun p q _ _ => v p q) x0 x1 b0 b1 b H B) as [a2 [E2 [S2 V2]]]. rewrite E2. cbn [bind].
  assert (I2 : array_is a2 b (fun i => v (pt x0 (operand_index b0 i)) (pt (second x0 x1) (operand_index b1 i)))).
  { split; [rewrite S2; apply app_nil_r|]. intros i Hi. rewrite <- (app_nil_r i) at 1. apply (V2 i [] [] Hi); constructor. }
  destruct (em_call_ok insh (pj_n P) (fun x _ r => kP (pj_fun P) v x (nth 0 r 0)) (pj_basis P) x0 x1 b0 b1 b EF EO EP H B) as [a3 [E3 I3]]. rewrite E3. cbn [bind].
  assert (G4 : exists a, em_call (PLeaf insh [] [pj_n P] false (fun x _ r => kP (pj_fun P) v x (nth 0 r 0))) (pj_basis P)
      (match x1 with None => x0 | Some x => x end) (match x1 with None => None | Some _ => Some x0 end) = Ok a /\
    array_is a b (fun i => dot (pj_n P) (kP (pj_fun P) v (pt (second x0 x1) (operand_index b1 i))) (fun k => ft_val (pj_basis P) (pt x0 (operand_index b0 i)) [k]))).
  { destruct H as [E0 E1']. destruct x1 as [x|]; cbn [second] in *.
    - apply (em_call_ok insh (pj_n P) (fun x _ r => kP (pj_fun P) v x (nth 0 r 0)) (pj_basis P) x (Some x0) b1 b0 b EF EO EP); [now split|now rewrite broadcast_sym].
    - assert (b1 = b0) as -> by (rewrite E0 in E1'; now apply app_inv_tail in E1').
      apply (em_call_ok insh (pj_n P) (fun x _ r => kP (pj_fun P) v x (nth 0 r 0)) (pj_basis P) x0 None b0 b0 b EF EO EP); [now split|exact B]. }
  destruct G4 as [a4 [E4 I4]]. rewrite E4. cbn [bind].
  destruct (nd_add_is _ _ _ _ _ I1 I2) as [r1 [-> J1]]. cbn [bind]. destruct (nd_sub_is _ _ _ _ _ J1 I3) as [r2 [-> J2]]. cbn [bind].
  destruct (nd_sub_is _ _ _ _ _ J2 I4) as [r3 [-> J3]]. cbn [bind]. destruct (nd_add_is _ _ _ _ _ J3 I1) as [r4 [-> J4]].
  exists r4. split; [reflexivity|]. exact J4.
Qed.
End Arr.
