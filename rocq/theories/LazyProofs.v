(** Lemmas about lazy tensors of tensor products and of Wendland covariance functions. *)
From Coq Require Import List Reals Bool Arith ZArith Lia Lra.
From Verif Require Import Base NdArray NdData PolyModel PolyClassModel BlockModel CovModel CrossModel CrossKern ShapedModel DtypeModel
  PolyCalc FunExprModel DiffopModel DiffopSpec LfoModel KernelModel BatchModel BatchSpec BatchProofs BatchEval BatchProps BatchKeops WendlandModel
  TensorModel TensorSpec TensorProofs TensorDiffSpec TensorDiff LazyModel LazySpec.
Import ListNotations.
Open Scope R_scope.

(** ** Products and sums *)
Lemma lvals_bin op A B n0 n1 g h : lazy_values A n0 n1 g -> lazy_values B n0 n1 h -> exists L, lbin op A B = Ok L /\ lazy_values L n0 n1 (fun i j => op (g i j) (h i j)).
Proof. intros [DA VA] [DB VB]. unfold lbin. rewrite DA, DB. eexists. split; [reflexivity|]. split; [reflexivity|]. intros i j Hi Hj. cbn. now rewrite VA, VB. Qed.
Lemma lvals_fun f A n0 n1 g : lazy_values A n0 n1 g -> lazy_values (lfun f A) n0 n1 (fun i j => f (g i j)).
Proof. intros [DA VA]. split; [exact DA|]. intros i j Hi Hj. cbn. now rewrite VA. Qed.
Lemma lvals_ext A n0 n1 g h : (forall i j, (i < n0)%nat -> (j < n1)%nat -> g i j = h i j) -> lazy_values A n0 n1 g -> lazy_values A n0 n1 h.
Proof. intros E [D V]. split; [exact D|]. intros i j Hi Hj. now rewrite V, E. Qed.
Lemma reduceM_lazy n0 n1 : forall Ls (gs : list (nat -> nat -> R)), Forall2 (fun L g => lazy_values L n0 n1 g) Ls gs -> forall A g, lazy_values A n0 n1 g ->
  exists L, reduceM (lbin Rmult) A Ls = Ok L /\ lazy_values L n0 n1 (fun i j => g i j * fold_right Rmult 1 (map (fun h => h i j) gs)).
Proof.
  induction 1 as [|B h Ls gs HB _ IH]; intros A g HA; cbn [reduceM].
  - exists A. split; [reflexivity|]. revert HA. apply lvals_ext. intros. cbn. ring.
  - destruct (lvals_bin Rmult _ _ _ _ _ _ HA HB) as (C & -> & HC). cbn [bind]. destruct (IH _ _ HC) as (L & -> & HL). exists L. split; [reflexivity|].
    revert HL. apply lvals_ext. intros. cbn. ring.
Qed.
Lemma reduce_lazy n0 n1 (f : nat -> nat -> nat -> R) Ls : Ls <> [] -> (forall m L, nth_error Ls m = Some L -> lazy_values L n0 n1 (f m)) ->
  exists L, reduce (lbin Rmult) Ls = Ok L /\ lazy_values L n0 n1 (fun i j => fold_right Rmult 1 (map (fun m => f m i j) (seq 0 (length Ls)))).
Proof.
  intros N H. pose proof (Forall2_seq (fun L g => lazy_values L n0 n1 g) Ls f H) as X. destruct Ls as [|A Ls]; [contradiction|]. cbn [length seq map] in *. inversion X as [|? ? ? ? HA HL]; subst.
  cbn [reduce]. destruct (reduceM_lazy n0 n1 _ _ HL _ _ HA) as (L & -> & V). exists L. split; [reflexivity|]. revert V. apply lvals_ext. intros. cbn [map fold_right]. now rewrite map_map.
Qed.

(** ** Coordinates *)
Lemma mapR_seq {B} (f : nat -> result B) (Q : nat -> B -> Prop) n : (forall m, (m < n)%nat -> exists y, f m = Ok y /\ Q m y) ->
  exists ys, mapR f (seq 0 n) = Ok ys /\ length ys = n /\ forall m, (m < n)%nat -> exists y, nth_error ys m = Some y /\ Q m y.
Proof.
  intros H. assert (X : forall n s, (forall m, (m < n)%nat -> exists y, f (s + m)%nat = Ok y /\ Q (s + m)%nat y) ->
    exists ys, mapR f (seq s n) = Ok ys /\ length ys = n /\ forall m, (m < n)%nat -> exists y, nth_error ys m = Some y /\ Q (s + m)%nat y).
  { clear n H. induction n as [|n IH]; intros s H; cbn [seq mapR]; [exists []; repeat split; intros; lia|].
    destruct (H 0%nat) as (y & E & Hy); [lia|]. rewrite Nat.add_0_r in E, Hy. rewrite E. cbn [bind].
    destruct (IH (S s)) as (ys & -> & Ly & Hys). { intros m Hm. destruct (H (S m)) as (z & Z); [lia|]. exists z. now rewrite Nat.add_succ_r in Z. }
    cbn [bind]. exists (y :: ys). split; [reflexivity|]. split; [cbn; now rewrite Ly|]. intros [|m] Hm; [exists y; rewrite Nat.add_0_r; auto|]. destruct (Hys m) as (z & Z1 & Z2); [lia|]. exists z. rewrite Nat.add_succ_r. auto. }
  exact (X n 0%nat H).
Qed.
Lemma split_ok x0 x1 n0 n1 n : nshape x0 = [n0; n] -> nshape (second x0 x1) = [n1; n] ->
  exists x0s x1s, split_outputs x0 x1 n = Ok (x0s, x1s) /\ length x0s = n /\ length x1s = n /\
    forall m, (m < n)%nat -> exists y0 y1, item x0s m = Ok y0 /\ item x1s m = Ok y1 /\ nshape y0 = [n0] /\ nshape (second y0 y1) = [n1] /\
      (forall i, nat_ y0 [i] = coordinate x0 [i] m) /\ forall j, nat_ (second y0 y1) [j] = coordinate (second x0 x1) [j] m.
Proof.
  intros E0 E1. unfold split_outputs.
  destruct (mapR_seq (take_last x0) (fun m y => nshape y = [n0] /\ forall i, nat_ y i = coordinate x0 i m) n) as (x0s & -> & L0 & V0).
  { intros m Hm. destruct (take_last_ok x0 [n0] n m E0 Hm) as (y & E & S & V). eauto. }
  cbn [bind].
  destruct (mapR_seq (take_last_opt x1) (fun m y => match x1 with None => y = None | Some x => exists z, y = Some z /\ nshape z = [n1] /\ forall i, nat_ z i = coordinate x i m end) n) as (x1s & -> & L1 & V1).
  { intros m Hm. destruct x1 as [x1|]; cbn [take_last_opt second] in *; [|eauto]. destruct (take_last_ok x1 [n1] n m E1 Hm) as (z & -> & S & V). cbn [bind]. exists (Some z). eauto. }
  cbn [bind]. exists x0s, x1s. split; [reflexivity|]. split; [exact L0|]. split; [exact L1|]. intros m Hm.
  destruct (V0 m Hm) as (y0 & N0 & S0 & W0). destruct (V1 m Hm) as (y1 & N1 & W1). exists y0, y1. unfold item. rewrite N0, N1. repeat (split; [reflexivity|]). split; [exact S0|].
  destruct x1 as [x1|]; cbn [second] in *.
  - destruct W1 as (z & -> & S1 & W1). cbn [second]. repeat split; auto.
  - subst y1. cbn [second]. rewrite E0 in E1. split; [congruence|]. auto.
Qed.

(** ** The table of differentiated factors *)
Section Table.
Context {F : fops}.
Variables (pdf : nat -> mi -> kfun F -> result (kfun F)) (ks : list (kfun F)).
Definition from_pair (ps : list (mi * F * (mi * F))) (key : index * (nat * nat)) (k : kfun F) : Prop :=
  exists a c0 b c1 i o0 o1, In ((a, c0), (b, c1)) ps /\ In i (all_indices (mi_shape a)) /\ key = (i, (o0, o1)) /\
    mi_get a i = Ok o0 /\ mi_get b i = Ok o1 /\ dt_factor pdf ks a b i = Ok k.
Lemma dims_table a b : forall is t fs t', dt_dims pdf ks a b is t = Ok (fs, t') -> forall key k, dget key_eqb t' key = Some k ->
  dget key_eqb t key = Some k \/ exists i o0 o1, In i is /\ key = (i, (o0, o1)) /\ mi_get a i = Ok o0 /\ mi_get b i = Ok o1 /\ dt_factor pdf ks a b i = Ok k.
Proof.
  induction is as [|i is IH]; intros t fs t' H key k K; cbn [dt_dims] in H; [injection H as <- <-; auto|].
  destruct (dt_factor pdf ks a b i) as [f|] eqn:Ef; [|discriminate]. cbn [bind] in H. destruct (mi_get a i) as [o0|] eqn:E0; [|discriminate]. cbn [bind] in H.
  destruct (mi_get b i) as [o1|] eqn:E1; [|discriminate]. cbn [bind] in H. destruct (dt_dims pdf ks a b is _) as [[fs' t1]|] eqn:Ed; [|discriminate]. cbn [bind] in H. injection H as <- <-.
  destruct (IH _ _ _ Ed key k K) as [X|(j & p & q & Hj & R)].
  - rewrite dget_dset in X. destruct (key_eqb_spec (i, (o0, o1)) key) as [<-|]; [|auto]. injection X as <-. right. exists i, o0, o1. cbn. auto 6.
  - right. exists j, p, q. split; [now right|exact R].
Qed.
Lemma pairs_table : forall ps t ss t', dt_pairs pdf ks ps t = Ok (ss, t') -> forall key k, dget key_eqb t' key = Some k ->
  dget key_eqb t key = Some k \/ from_pair ps key k.
Proof.
  induction ps as [|[[a c0] [b c1]] ps IH]; intros t ss t' H key k K; cbn [dt_pairs] in H; [injection H as <- <-; auto|].
  destruct (dt_dims pdf ks a b _ t) as [[fs t1]|] eqn:Ed; [|discriminate]. cbn [bind] in H. destruct (mk_tensor fs) as [tp|]; [|discriminate]. cbn [bind] in H.
  destruct (dt_pairs pdf ks ps t1) as [[ss' t2]|] eqn:Ep; [|discriminate]. cbn [bind] in H. injection H as <- <-.
  destruct (IH _ _ _ Ep key k K) as [X|(a' & d0 & b' & d1 & i & o0 & o1 & Hi & R)].
  - destruct (dims_table _ _ _ _ _ _ Ed key k X) as [Y|(i & o0 & o1 & Hi & R)]; [auto|]. right. exists a, c0, b, c1, i, o0, o1. split; [now left|]. split; [exact Hi|exact R].
  - right. exists a', d0, b', d1, i, o0, o1. split; [now right|exact R].
Qed.
Lemma init_table L0 L1 C0 C1 d : terms L0 (length ks) C0 -> terms L1 (length ks) C1 -> dt_init pdf ks L0 L1 = Ok d ->
  forall m p q k, dget key_eqb (dt_table d) ([m], (p, q)) = Some k ->
  exists a c0 b c1 k0 k1, In (a, c0) C0 /\ In (b, c1) C1 /\ nth_error ks m = Some k0 /\ p = mi_entry a [m] /\ q = mi_entry b [m] /\
    pdf 1 (MI [] [q]) k0 = Ok k1 /\ pdf 0 (MI [] [p]) k1 = Ok k.
Proof.
  intros T0 T1 I m p q k K. unfold dt_init in I. rewrite (terms_ok _ _ _ T0), (terms_ok _ _ _ T1) in I. cbn [bind] in I.
  destruct (dt_pairs pdf ks (list_prod C0 C1) []) as [[ss t]|] eqn:Ep; [|discriminate]. cbn [bind] in I. destruct ss as [|s ss]; [discriminate|]. injection I as <-. cbn [dt_table] in K.
  destruct (pairs_table _ _ _ _ Ep _ _ K) as [X|(a & c0 & b & c1 & i & o0 & o1 & Hp & Hi & Ek & G0 & G1 & Fk)]; [discriminate|]. injection Ek as <- <- <-.
  apply in_prod_iff in Hp as [Ha Hb]. destruct T0 as [_ [W0 _]], T1 as [_ [W1 _]]. destruct (W0 a c0 Ha) as [_ S0]. destruct (W1 b c1 Hb) as [_ S1].
  rewrite S0, indices_one in Hi. apply in_map_iff in Hi as (m' & E & Hm). injection E as ->. apply in_seq in Hm.
  assert (Hn : (m < length ks)%nat) by lia. rewrite (mi_get_ok a _ m S0 Hn) in G0. rewrite (mi_get_ok b _ m S1 Hn) in G1. injection G0 as <-. injection G1 as <-.
  unfold dt_factor in Fk. rewrite (dt_pd_ok a _ m S0 Hn), (dt_pd_ok b _ m S1 Hn) in Fk. cbn [bind nth] in Fk.
  destruct (nth_error ks m) as [k0|]; [|discriminate]. destruct (pdf 1 (MI [] [mi_entry b [m]]) k0) as [k1|] eqn:E1; [|discriminate]. cbn [bind] in Fk.
  exists a, c0, b, c1, k0, k1. auto 8.
Qed.
End Table.

(** ** Wendland covariance functions *)
Lemma wendland_valid d k p : wendland_poly d k = Ok p -> py_valid p.
Proof.
  unfold wendland_poly. destruct (phi_l_coefficients _) as [cs0|]; [|discriminate]. cbn [bind]. match goal with |- context [Nat.iter ?n ?f cs0] => destruct (Nat.iter n f cs0) as [|c0 cs] end; [discriminate|].
  destruct (Qcanon.Qc_eq_bool c0 _); [discriminate|]. destruct (_ =? _)%Z; [|discriminate]. intros H. injection H as <-. unfold py_valid, make_rational. cbn. discriminate.
Qed.
Lemma mk_wendland_ok sh k len w : mk_wendland sh k len = Ok w -> wl_shape w = sh /\ wl_len w = len /\ py_valid (wl_poly w).
Proof.
  unfold mk_wendland. destruct (wendland_poly _ k) as [p|] eqn:E; [|discriminate]. cbn [bind]. intros H. injection H as <-. cbn. split; [reflexivity|]. split; [reflexivity|]. exact (wendland_valid _ _ _ E).
Qed.
Lemma wlscale_holds sc w b : lens_ok sc (wl_shape w) (wl_len w) -> holds (klen sc) b (wl_shape w) (wl_scale_t sc w) (fun _ j => wl_scale w j).
Proof. intros L. unfold wl_scale_t. apply (tfun_holds (fun l => 1 / l) false). now apply tlen_holds. Qed.
Definition wl_dist (w : wendland) (x0 x1 : array) : R := bnorm (wl_shape w) (fun i => vdiff x0 x1 i * wl_scale w i).
Lemma where_holds b r v g h : holds Kb b [] r g -> holds Kb b [] v h -> holds Kb b [] (where_le1 r v) (fun i j => if Rleb (g i j) 1 then h i j else 0).
Proof.
  intros (Ir & Sr & Vr) (Iv & Sv & Vv). unfold where_le1. rewrite Iv. split; [reflexivity|]. split; [exact Sr|]. intros i j Hi Hj. cbn [t_arr nat_]. now rewrite Vr, Vv.
Qed.
Lemma wfun_holds m p b r g : py_valid p -> holds Kb b [] r g -> exists a, wfun_b m p r = Ok a /\ holds Kb b [] a (fun i j => wendland_function p (g i j)).
Proof.
  intros V H. unfold wfun_b. destruct (poly_holds m p b r g V H) as (v & -> & Hv). cbn [bind]. eexists. split; [reflexivity|]. exact (where_holds _ _ _ _ _ H Hv).
Qed.
Section WPts.
Variables (x0 y : tnd) (n m : nat) (sc : bool) (w : wendland).
Hypothesis N : (length (wl_shape w) <= 1)%nat.
Hypothesis S0 : t_shape x0 = n :: wl_shape w.
Hypothesis S1 : t_shape y = m :: wl_shape w.
Lemma wl_ldists_ok : lens_ok sc (wl_shape w) (wl_len w) -> exists r, ldists (wl_scale_t sc w) x0 y = Ok r /\ ln r (fun i j => wl_dist w (px x0 i) (py y j)).
Proof.
  intros Le. unfold ldists. destruct (ldiff_ok x0 y n m _ N S0 S1) as (d & -> & Hd). cbn [bind]. pose proof (wlscale_holds sc w [] Le) as Hs.
  assert (X : exists s L, pm (wl_scale_t sc w) = Ok s /\ lbin Rmult d s = Ok L /\ lv (wl_shape w) L (fun i j k => vdiff (px x0 i) (py y j) k * wl_scale w k)).
  { destruct sc; cbn [klen] in Hs.
    - assert (Hs' : holds K0 [] [] (wl_scale_t true w) (fun _ _ => wl_scale w [])) by (unfold wl_scale_t, tlen; repeat split).
      destruct (ln_pm _ _ Hs') as (s & Es & Ls). destruct (lv_ln Rmult _ _ _ _ _ Hd Ls) as (L & EL & DL & VL). exists s, L. split; [exact Es|]. split; [exact EL|]. split; [exact DL|].
      intros i j k Hk. rewrite VL by exact Hk. cbv beta. f_equal. unfold wl_scale. f_equal. symmetry. apply Le; [reflexivity|].
      destruct (wl_shape w) as [|? [|? ?]]; cbn in N, Hk |- *; [constructor|repeat constructor; exact Hk|lia].
    - destruct (lv_pm _ _ (wl_scale w) N Hs) as (s & Es & Ls). destruct (lv_lv Rmult _ _ _ _ _ Hd Ls) as (L & EL & HL). eauto. }
  destruct X as (s & L & -> & E & HL). cbn [bind]. rewrite E. cbn [bind]. destruct (lv_lv Rmult _ _ _ _ _ HL HL) as (q & -> & Hq). cbn [bind].
  eexists. split; [reflexivity|]. pose proof (ln_fun sqrt _ _ (ln_sum _ _ _ N Hq)) as [D V]. split; [exact D|]. intros i j. rewrite V. unfold wl_dist, bnorm, bnorm_sq. f_equal. unfold bsum. f_equal. apply map_ext. intros a. ring.
Qed.
End WPts.
Lemma wfun_lazy_ok p r g : py_valid p -> ln r g -> exists L, wfun_lazy p r = Ok L /\ ln L (fun i j => wendland_function p (g i j)).
Proof.
  intros V H. unfold wfun_lazy. destruct (ln_poly p r g V H) as (v & -> & Dv & Vv). cbn [bind]. pose proof H as [Dr Vr]. unfold lifelse. cbn [lfun l_dim l_at]. rewrite Dr, Dv. cbn [Nat.eqb andb].
  eexists. split; [reflexivity|]. split; [reflexivity|]. intros i j. cbn [l_at]. rewrite Vr, Vv. unfold wendland_function, Rleb.
  destruct (Rle_dec 0 (1 - g i j)), (Rle_dec (g i j) 1); try reflexivity; lra.
Qed.
