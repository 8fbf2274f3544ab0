(** Lemmas about the closed-form solutions of Poisson and heat problems. *)
From Coq Require Import List Reals Lra Lia Bool Arith ZArith FunctionalExtensionality.
From Coquelicot Require Import Coquelicot.
From Verif Require Import Base NdArray PolyModel PolySpec PolyProofs PolyClassModel PolyCalc PiecewiseModel PiecewiseSpec PiecewiseProofs
  FunExprModel DiffopModel DiffopSpec DiffopProofs LfoModel LfoSpec LfoSmooth DomainModel PdeModel.
Import ListNotations.
Open Scope R_scope.

(** ** Initial value problems *)
Ltac rring := match goal with |- @eq _ ?a ?b => change (@eq R a b) end; unfold Rdiv; ring.
Lemma RPS_scale (l : list R) c x : RPS (map (fun d => d / c) l) x = RPS l x / c.
Proof.
  induction l as [|d l IH]; [cbn [map]; rewrite RPS_nil; unfold Rdiv; ring|].
  cbn [map]. rewrite !RPS_cons, IH. unfold Rdiv. ring.
Qed.
Lemma peval_ps (p : list R) x : p <> [] -> @peval RF p x = RPS p x.
Proof. intros H. apply (horner_correct RF RF_laws). exact H. Qed.
Lemma ivp_eval c0 c1 rhs alpha x : alpha <> 0 ->
  py_eval (make_float (c0 :: c1 :: map (fun c => c / - alpha) (skipn 2 (float_coeffs (py_integrate (py_integrate rhs)))))) x =
  c0 + c1 * x + py_eval (py_integrate (py_integrate rhs)) x / - alpha.
Proof.
  intros Ha. unfold py_eval, make_float. cbn [float_coeffs mkpoly]. rewrite py_integrate_coeffs.
  assert (E : exists l, @pintegrate RF (float_coeffs (py_integrate rhs)) = 0 :: 0 :: l).
  { rewrite py_integrate_coeffs. unfold pintegrate. cbn [mkpoly enum_div]. eexists. f_equal. f_equal. cbn. unfold Rdiv. ring. }
  destruct E as [l E].
  change (@peval RF (c0 :: c1 :: map (fun c : R => c / - alpha) (skipn 2 (@pintegrate RF (float_coeffs (py_integrate rhs))))) x =
    c0 + c1 * x + @peval RF (@pintegrate RF (float_coeffs (py_integrate rhs))) x / - alpha).
  rewrite E. rewrite !peval_ps by discriminate. cbn [skipn]. rewrite !RPS_cons, RPS_scale.
  match goal with |- @eq _ ?a ?b => change (@eq R a b) end. unfold Rdiv. ring.
Qed.
(** The function [u] solves [-alpha u'' = rhs] with derivative [v]. *)
Definition ivp_solves (alpha : R) (rhs u v : R -> R) : Prop :=
  (forall x, is_derive u x (v x)) /\ forall x, is_derive v x (- rhs x / alpha).
Lemma is_derive_unique_fn (u : R -> R) x a b : is_derive u x a -> is_derive u x b -> a = b.
Proof. intros H1 H2. apply is_derive_unique in H1. apply is_derive_unique in H2. congruence. Qed.
Lemma poisson_ivp_ok dom dt l r rhs iv0 iv1 alpha : asdomain dom = Ok (Interval dt l r) -> py_valid rhs -> alpha <> 0 ->
  exists u, poisson_ivp dom rhs iv0 iv1 alpha = Ok u /\ py_valid u /\
    ivp_solves alpha (py_eval rhs) (py_eval u) (py_eval (py_diff u)) /\ py_eval u l = iv0 /\ py_eval (py_diff u) l = iv1.
Proof.
  intros D V Ha. unfold poisson_ivp. rewrite D. cbn [bind]. unfold Reqb. destruct (Req_EM_T alpha 0) as [|_]; [contradiction|].
  set (c1 := iv1 - _). set (c0 := iv0 - _ - _). set (u := make_float _). exists u. split; [reflexivity|].
  assert (Vu : py_valid u) by discriminate. split; [exact Vu|].
  assert (Eu : forall x, py_eval u x = c0 + c1 * x + py_eval (py_integrate (py_integrate rhs)) x / - alpha) by (intros x; now apply ivp_eval).
  assert (Ev : forall x, py_eval (py_diff u) x = c1 + py_eval (py_integrate rhs) x / - alpha).
  { intros x. apply (is_derive_unique_fn (py_eval u) x); [now apply py_diff_is_derive|].
    apply (is_derive_ext (fun t => c0 + c1 * t + py_eval (py_integrate (py_integrate rhs)) t / - alpha)); [intros t; now rewrite Eu|].
    pose proof (py_integrate_is_antideriv (py_integrate rhs) x (py_valid_integrate rhs)) as H.
    apply @is_derive_plus; [auto_derive; [exact I|ring]|].
    apply (is_derive_ext (fun t => / - alpha * py_eval (py_integrate (py_integrate rhs)) t)); [intros t; unfold Rdiv; apply Rmult_comm|].
    replace (py_eval (py_integrate rhs) x / - alpha) with (/ - alpha * py_eval (py_integrate rhs) x) by (unfold Rdiv; ring).
    now apply @is_derive_scal. }
  split; [split|split].
  - intros x. now apply py_diff_is_derive.
  - intros x. apply (is_derive_ext (fun t => c1 + / - alpha * py_eval (py_integrate rhs) t)); [intros t; rewrite Ev; rring|].
    replace (- py_eval rhs x / alpha) with (0 + / - alpha * py_eval rhs x) by (field; exact Ha).
    apply @is_derive_plus; [apply @is_derive_const|]. apply @is_derive_scal. now apply py_integrate_is_antideriv.
  - rewrite Eu. unfold c0. rring.
  - rewrite Ev. unfold c1. rring.
Qed.

(** ** Piecewise initial value problems *)
Lemma scalar_interval l r : l <= r -> asdomain (DLSeq [scalar l; scalar r]) = Ok (Interval F64 l r).
Proof. intros H. cbn. unfold mk_interval. destruct (Rltb_spec r l); [lra|reflexivity]. Qed.
Lemma ivp_pieces_ok alpha : alpha <> 0 -> forall ps xs iv0 iv1, List.Forall py_valid ps -> length xs = S (length ps) ->
  (forall i, (S i < length xs)%nat -> nth i xs 0 <= nth (S i) xs 0) ->
  exists us, ivp_pieces ps xs iv0 iv1 alpha = Ok us /\ length us = length ps /\ List.Forall py_valid us /\
    (forall i d, (i < length ps)%nat -> ivp_solves alpha (py_eval (nth i ps d)) (py_eval (nth i us d)) (py_eval (py_diff (nth i us d)))) /\
    (forall d, ps <> [] -> py_eval (nth 0 us d) (nth 0 xs 0) = iv0 /\ py_eval (py_diff (nth 0 us d)) (nth 0 xs 0) = iv1) /\
    (forall i d, (S i < length ps)%nat -> py_eval (nth (S i) us d) (nth (S i) xs 0) = py_eval (nth i us d) (nth (S i) xs 0) /\
       py_eval (py_diff (nth (S i) us d)) (nth (S i) xs 0) = py_eval (py_diff (nth i us d)) (nth (S i) xs 0)).
Proof.
  intros Ha. induction ps as [|p ps IH]; intros xs iv0 iv1 V L S.
  - exists []. cbn [ivp_pieces]. split; [reflexivity|]. split; [reflexivity|]. split; [constructor|].
    split; [intros i d H; inversion H|]. split; [congruence|intros i d H; inversion H].
  - destruct xs as [|l [|r xs]]; cbn in L; try lia. inversion V; subst.
    cbn [ivp_pieces]. destruct (poisson_ivp_ok (DLSeq [scalar l; scalar r]) F64 l r p iv0 iv1 alpha) as (u & Hu & Vu & Su & U0 & U1); try assumption.
    { apply scalar_interval. apply (S 0%nat). cbn. lia. }
    rewrite Hu. cbn [bind].
    destruct (IH (r :: xs) (py_eval u r) (py_eval (py_diff u) r)) as (us & Hus & Lus & Vus & Sus & I0 & Gl); [assumption|cbn; lia| |].
    { intros i Hi. apply (S (Datatypes.S i)). cbn in *. lia. }
    rewrite Hus. cbn [bind]. exists (u :: us). split; [reflexivity|]. split; [cbn; lia|]. split; [now constructor|]. split; [|split].
    + intros [|i] d Hi; [exact Su|]. cbn [nth length] in *. apply Sus. lia.
    + intros d _. cbn [nth]. auto.
    + intros [|i] d Hi; cbn [nth length] in *.
      * apply I0. intros ->. cbn in Hi. lia.
      * apply (Gl i d). lia.
Qed.
Lemma poly_pieces_ok fs ps : fs = map PcPoly ps -> poly_pieces fs = Ok ps.
Proof. revert fs. induction ps as [|p ps IH]; intros fs ->; [reflexivity|]. cbn. now rewrite (IH _ eq_refl). Qed.
(** Gluing derivatives. *)
Lemma glue_derive (U g h : R -> R) x a b l : a < x < b -> (forall y, a < y <= x -> U y = g y) -> (forall y, x <= y < b -> U y = h y) ->
  is_derive g x l -> is_derive h x l -> is_derive U x l.
Proof.
  intros Hx Hg Hh Dg Dh. apply is_derive_Reals in Dg. apply is_derive_Reals in Dh. apply is_derive_Reals.
  intros eps Heps. destruct (Dg eps Heps) as [d1 H1], (Dh eps Heps) as [d2 H2].
  assert (P : 0 < Rmin (Rmin d1 d2) (Rmin (x - a) (b - x))).
  { pose proof (cond_pos d1). pose proof (cond_pos d2). repeat apply Rmin_glb_lt; lra. }
  exists (mkposreal _ P). cbn. intros k Hk Hd.
  pose proof (Rmin_l (Rmin d1 d2) (Rmin (x - a) (b - x))). pose proof (Rmin_r (Rmin d1 d2) (Rmin (x - a) (b - x))).
  pose proof (Rmin_l (x - a) (b - x)). pose proof (Rmin_r (x - a) (b - x)). pose proof (Rmin_l d1 d2). pose proof (Rmin_r d1 d2).
  apply Rabs_def2 in Hd as Hd'. destruct (Rle_lt_dec k 0) as [N|N].
  - rewrite (Hg (x + k)), (Hg x) by lra. apply H1; [exact Hk|lra].
  - rewrite (Hh (x + k)), (Hh x) by lra. apply H2; [exact Hk|lra].
Qed.
Lemma glue_continuous (U g h : R -> R) x a b : a < x < b -> (forall y, a < y <= x -> U y = g y) -> (forall y, x <= y < b -> U y = h y) ->
  continuous g x -> continuous h x -> continuous U x.
Proof.
  intros Hx Hg Hh Cg Ch. apply continuous_eps. intros eps.
  destruct (proj1 (continuous_eps _ _) Cg eps) as [d1 H1], (proj1 (continuous_eps _ _) Ch eps) as [d2 H2].
  assert (P : 0 < Rmin (Rmin d1 d2) (Rmin (x - a) (b - x))).
  { pose proof (cond_pos d1). pose proof (cond_pos d2). repeat apply Rmin_glb_lt; lra. }
  exists (mkposreal _ P). cbn. intros y Hd.
  pose proof (Rmin_l (Rmin d1 d2) (Rmin (x - a) (b - x))). pose proof (Rmin_r (Rmin d1 d2) (Rmin (x - a) (b - x))).
  pose proof (Rmin_l (x - a) (b - x)). pose proof (Rmin_r (x - a) (b - x)). pose proof (Rmin_l d1 d2). pose proof (Rmin_r d1 d2).
  apply Rabs_def2 in Hd as Hd'. destruct (Rle_lt_dec y x) as [N|N].
  - rewrite (Hg y), (Hg x) by lra. apply H1. lra.
  - rewrite (Hh y), (Hh x) by lra. apply H2. lra.
Qed.
Definition diff_piece (f : piece) : piece := match f with PcPoly p => PcPoly (py_diff p) | g => g end.

Lemma piecewise_ivp_ok dom dt l r xs ps iv0 iv1 alpha : asdomain dom = Ok (Interval dt l r) -> alpha <> 0 -> List.Forall py_valid ps -> ps <> [] ->
  length xs = S (length ps) -> increasing xs ->
  exists f V, poisson_ivp_piecewise dom (mkpw KPiecewise xs (map PcPoly ps)) iv0 iv1 alpha = Ok f /\ pw_xs f = xs /\
    (forall i x, (i < length ps)%nat -> nth i xs 0 < x < nth (S i) xs 0 ->
       is_derive V x (- pw_value (mkpw KPiecewise xs (map PcPoly ps)) x / alpha)) /\
    (forall x, nth 0 xs 0 < x < nth (length ps) xs 0 -> is_derive (pw_value f) x (V x) /\ continuous V x) /\
    pw_value f (nth 0 xs 0) = iv0 /\ V (nth 0 xs 0) = iv1 /\
    (exists u, (forall x, is_derive (py_eval u) x (py_eval (py_diff u) x)) /\
       forall x, nth 0 xs 0 <= x <= nth 1 xs 0 -> pw_value f x = py_eval u x /\ V x = py_eval (py_diff u) x).
Proof.
  intros D Ha Vp Np L Inc. destruct (ivp_pieces_ok alpha Ha ps xs iv0 iv1 Vp L) as (us & Hus & Lus & Vus & Sus & I0 & Gl).
  { intros i Hi. apply Rlt_le. apply Inc. lia. }
  set (d := make_float []) in *.
  set (f := mkpw KPiecewise xs (map PcPoly us)). set (g := mkpw KPiecewise xs (map PcPoly (map py_diff us))).
  exists f, (pw_value g).
  assert (Hn : (0 < length ps)%nat) by (destruct ps; [congruence|cbn; lia]).
  assert (Vf : forall i x, (i < length ps)%nat -> in_cell xs i x -> pw_value f x = py_eval (nth i us d) x).
  { intros i x Hi Hc. unfold pw_value. rewrite (pw_eval_inside f i x (PcPoly d)); cbn [pw_xs pw_fns pw_kind f]; try assumption; try discriminate.
    - now rewrite (map_nth PcPoly).
    - unfold pw_valid. cbn. rewrite map_length. lia.
    - rewrite map_length. lia. }
  assert (Vg : forall i x, (i < length ps)%nat -> in_cell xs i x -> pw_value g x = py_eval (py_diff (nth i us d)) x).
  { intros i x Hi Hc. unfold pw_value. rewrite (pw_eval_inside g i x (PcPoly (py_diff d))); cbn [pw_xs pw_fns pw_kind g]; try assumption; try discriminate.
    - rewrite (map_nth PcPoly). cbn [piece_eval]. now rewrite (map_nth py_diff).
    - unfold pw_valid. cbn. rewrite !map_length. lia.
    - rewrite !map_length. lia. }
  assert (Vr : forall i x, (i < length ps)%nat -> in_cell xs i x -> pw_value (mkpw KPiecewise xs (map PcPoly ps)) x = py_eval (nth i ps d) x).
  { intros i x Hi Hc. unfold pw_value. rewrite (pw_eval_inside _ i x (PcPoly d)); cbn [pw_xs pw_fns pw_kind]; try assumption; try discriminate.
    - now rewrite (map_nth PcPoly).
    - unfold pw_valid. cbn. rewrite map_length. lia.
    - rewrite map_length. lia. }
  assert (IC : forall i x, nth i xs 0 < x <= nth (S i) xs 0 -> in_cell xs i x) by (intros [|i] x H; cbn in *; lra).
  (* values on closed cells *)
  assert (Cf : forall i x, (i < length ps)%nat -> nth i xs 0 <= x <= nth (S i) xs 0 -> pw_value f x = py_eval (nth i us d) x).
  { intros i x Hi Hx. destruct (Rle_lt_or_eq_dec (nth i xs 0) x ltac:(lra)) as [Lt|E]; [apply Vf; [exact Hi|apply IC; lra]|].
    destruct i as [|i]; [apply Vf; [exact Hi|cbn; lra]|]. rewrite <- E. rewrite (Vf i); [|lia|].
    - symmetry. now apply Gl.
    - apply IC. split; [apply Inc; lia|lra]. }
  assert (Cg : forall i x, (i < length ps)%nat -> nth i xs 0 <= x <= nth (S i) xs 0 -> pw_value g x = py_eval (py_diff (nth i us d)) x).
  { intros i x Hi Hx. destruct (Rle_lt_or_eq_dec (nth i xs 0) x ltac:(lra)) as [Lt|E]; [apply Vg; [exact Hi|apply IC; lra]|].
    destruct i as [|i]; [apply Vg; [exact Hi|cbn; lra]|]. rewrite <- E. rewrite (Vg i); [|lia|].
    - symmetry. now apply Gl.
    - apply IC. split; [apply Inc; lia|lra]. }
  split; [|split; [reflexivity|split; [|split; [|split; [|split]]]]].
  - unfold poisson_ivp_piecewise. rewrite D. cbn [bind pw_fns pw_xs]. rewrite (poly_pieces_ok _ ps eq_refl). cbn [bind]. rewrite Hus. cbn [bind].
    apply piecewise_init_ok. rewrite map_length. lia.
  - intros i x Hi Hx. rewrite (Vr i) by (try assumption; apply IC; lra).
    apply (is_derive_ext_loc (py_eval (py_diff (nth i us d)))).
    + assert (P : 0 < Rmin (x - nth i xs 0) (nth (S i) xs 0 - x)) by (apply Rmin_glb_lt; lra). exists (mkposreal _ P).
      intros y Hy. symmetry. apply Cg; [exact Hi|]. unfold ball in Hy. cbn in Hy. unfold AbsRing_ball, abs, minus, plus, opp in Hy. cbn in Hy.
      pose proof (Rmin_l (x - nth i xs 0) (nth (S i) xs 0 - x)). pose proof (Rmin_r (x - nth i xs 0) (nth (S i) xs 0 - x)). apply Rabs_def2 in Hy. lra.
    + now apply Sus.
  - intros x Hx. destruct (in_cell_exists xs x) as (i & Hi & Hc); [lia|replace (length xs - 1)%nat with (length ps) by lia; lra|].
    assert (Hi' : (i < length ps)%nat) by lia.
    assert (Lo : nth i xs 0 < x) by (destruct i; cbn in Hc; lra). assert (Up : x <= nth (S i) xs 0) by (destruct i; cbn in Hc; lra).
    assert (Vi : forall j, (j < length ps)%nat -> py_valid (nth j us d)) by (intros j Hj; apply (proj1 (Forall_forall _ _) Vus); apply nth_In; lia).
    destruct (Rle_lt_or_eq_dec _ _ Up) as [Lt|E].
    + split.
      * apply (glue_derive _ (py_eval (nth i us d)) (py_eval (nth i us d)) x (nth i xs 0) (nth (S i) xs 0)); [lra|intros; apply Cf; [exact Hi'|lra]..| |];
          rewrite (Cg i) by (try assumption; lra); now apply Sus.
      * apply (glue_continuous _ (py_eval (py_diff (nth i us d))) (py_eval (py_diff (nth i us d))) x (nth i xs 0) (nth (S i) xs 0)); [lra|intros; apply Cg; [exact Hi'|lra]..| |];
          apply py_eval_continuous, py_valid_diff.
    + assert (Hi2 : (S i < length ps)%nat). { destruct (Nat.eq_dec (S i) (length ps)) as [X|X]; [rewrite <- X in Hx; lra|lia]. }
      assert (Lt2 : nth (S i) xs 0 < nth (S (S i)) xs 0) by (apply Inc; lia).
      split.
      * apply (glue_derive _ (py_eval (nth i us d)) (py_eval (nth (S i) us d)) x (nth i xs 0) (nth (S (S i)) xs 0)); [lra|intros; apply Cf; [lia|lra]..| |].
        -- rewrite (Cg i) by (try assumption; lra). now apply Sus.
        -- rewrite (Cg (S i)) by (try assumption; lra). now apply Sus.
      * apply (glue_continuous _ (py_eval (py_diff (nth i us d))) (py_eval (py_diff (nth (S i) us d))) x (nth i xs 0) (nth (S (S i)) xs 0)); [lra|intros; apply Cg; [lia|lra]..| |];
          apply py_eval_continuous, py_valid_diff.
  - assert (L01 : nth 0 xs 0 < nth 1 xs 0) by (apply Inc; lia). rewrite (Cf 0%nat) by (try lia; lra). now apply I0.
  - assert (L01 : nth 0 xs 0 < nth 1 xs 0) by (apply Inc; lia). rewrite (Cg 0%nat) by (try lia; lra). now apply I0.
  - exists (nth 0 us d). split; [intros x; now apply Sus|]. intros x Hx. split; [apply Cf|apply Cg]; lia || lra.
Qed.

(** ** Boundary value problems *)
Lemma pd_scalar (u : R -> R) v x : is_derive u (x []) v -> pd [] (fun y => u (y [])) x = v.
Proof.
  intros H. unfold pd. apply is_derive_unique. apply (is_derive_ext u); [|exact H].
  intros t. unfold upd. now destruct (list_eq_dec Nat.eq_dec [] []).
Qed.
Lemma pd2_scalar (u v : R -> R) w x : (forall t, is_derive u t (v t)) -> is_derive v (x []) w -> pd [] (pd [] (fun y => u (y []))) x = w.
Proof.
  intros Hu Hv. replace (pd [] (fun y => u (y []))) with (fun y : FunExprModel.array => v (y [])); [now apply pd_scalar|].
  apply functional_extensionality. intros y. symmetry. now apply pd_scalar.
Qed.
Lemma laplace_1d alpha b (u v : R -> R) (F : FunExprModel.array -> FunExprModel.array) (x : FunExprModel.array) (w : R) : (forall y, F y [] = u (y [])) -> (forall t, is_derive u t (v t)) -> is_derive v (x []) w ->
  osem (o_scale (- alpha) (ODiff (DLap b [] (fun _ => 1)))) F x [] = - alpha * w.
Proof.
  intros E Hu Hv. cbn [o_scale osem dsem]. replace (fun y : FunExprModel.array => F y []) with (fun y : FunExprModel.array => u (y [])) by (apply functional_extensionality; intros y; symmetry; apply E).
  change (all_indices []) with [@nil nat]. cbn [map total fold_right].
  rewrite (pd2_scalar u v w x Hu Hv). ring.
Qed.
Definition quad (l r ul ur c alpha x : R) : R := (0.5 * c / - alpha * (x - r) + (ur - ul) / (r - l)) * (x - l) + ul.
Definition quad' (l r ul ur c alpha x : R) : R := 0.5 * c / - alpha * (2 * x - l - r) + (ur - ul) / (r - l).
Lemma quad_ok l r ul ur c alpha : l < r -> alpha <> 0 ->
  (forall x, is_derive (quad l r ul ur c alpha) x (quad' l r ul ur c alpha x)) /\
  (forall x, is_derive (quad' l r ul ur c alpha) x (c / - alpha)) /\ quad l r ul ur c alpha l = ul /\ quad l r ul ur c alpha r = ur.
Proof.
  intros H Ha. unfold quad, quad'. replace 0.5 with (/ 2) by lra. split; [|split; [|split]].
  - intros x. auto_derive; [exact I|field; lra].
  - intros x. auto_derive; [exact I|field; lra].
  - field. lra.
  - field. lra.
Qed.
Lemma poisson_constant_ok dom dt l r c ul ur alpha : asdomain dom = Ok (Interval dt l r) -> l < r -> alpha <> 0 ->
  poisson_constant dom c ul ur alpha = Ok (FOther [] [] (fun x _ => quad l r ul ur c alpha (x []))).
Proof.
  intros D H Ha. unfold poisson_constant. rewrite D. cbn [bind]. unfold Reqb. destruct (Req_EM_T alpha 0); [contradiction|].
  destruct (Req_EM_T l r); [lra|]. reflexivity.
Qed.
Lemma poisson_equation_ok dom d rhs alpha : asdomain dom = Ok d ->
  match rhs with Some f => in_shape f = dshape d /\ out_shape f = [] | None => True end ->
  poisson_equation dom rhs alpha = Ok (Pde d (o_scale (- alpha) (ODiff (DLap true (dshape d) (fun _ => 1))))
    (match rhs with Some f => f | None => FZero (dshape d) [] end)).
Proof.
  intros D H. unfold poisson_equation. rewrite D. cbn [bind]. unfold linear_pde. cbn [asdomain bind o_scale o_in o_out fst snd d_dom].
  rewrite !shape_eqb_refl. cbn [negb].
  destruct rhs as [f|]; [destruct H as [-> ->]|cbn [in_shape out_shape]]; now rewrite !shape_eqb_refl.
Qed.
Lemma interval_boundary dt l r : is_floating dt = true -> boundary (Interval dt l r) = Ok [Point (mkarray dt [] [l]); Point (mkarray dt [] [r])].
Proof. intros H. cbn. unfold mk_point. cbn. now rewrite H. Qed.

(** ** Sine series and the heat equation *)
Lemma rsum_derive {A} (g h : A -> R -> R) t L : (forall a, In a L -> is_derive (g a) t (h a t)) ->
  is_derive (fun s => rsum (map (fun a => g a s) L)) t (rsum (map (fun a => h a t) L)).
Proof.
  induction L as [|a L IH]; intros H; cbn [map rsum fold_right]; [apply @is_derive_const|].
  apply @is_derive_plus; [apply H; now left|]. apply IH. intros b Hb. apply H. now right.
Qed.
Definition term (al t0 l : R) (p : R * R) (t x : R) : R := fst p * sin (snd p * (x - l)) * exp (al * snd p ^ 2 * (t0 - t)).
Definition term_x (al t0 l : R) (p : R * R) (t x : R) : R := fst p * (snd p * cos (snd p * (x - l))) * exp (al * snd p ^ 2 * (t0 - t)).
Definition term_xx (al t0 l : R) (p : R * R) (t x : R) : R := - snd p ^ 2 * term al t0 l p t x.
Ltac tidy al t0 t l x p := change (snd p * (snd p * 1)) with (snd p ^ 2); change (t0 + - t) with (t0 - t); change (x + - l) with (x - l); ring.
Lemma term_dt al t0 l p t x : is_derive (fun s => term al t0 l p s x) t (al * term_xx al t0 l p t x).
Proof. unfold term_xx, term. auto_derive; [exact I|]. tidy al t0 t l x p. Qed.
Lemma term_dx al t0 l p t x : is_derive (fun s => term al t0 l p t s) x (term_x al t0 l p t x).
Proof. unfold term_x, term. auto_derive; [exact I|]. 
 tidy al t0 t l x p. Qed.
Lemma term_dxx al t0 l p t x : is_derive (fun s => term_x al t0 l p t s) x (term_xx al t0 l p t x).
Proof. unfold term_xx, term_x, term. auto_derive; [exact I|]. tidy al t0 t l x p. Qed.
Definition terms (l r : R) (cs : list R) : list (R * R) := combine cs (frequencies l r (length cs)).
Lemma heat_eval_terms t0 l r al cs t x : heat_eval t0 l r al cs t x = rsum (map (fun p => term al t0 l p t x) (terms l r cs)).
Proof. unfold heat_eval, terms. f_equal. apply map_ext. now intros [c w]. Qed.
Definition heat_x t0 l r al cs t x := rsum (map (fun p => term_x al t0 l p t x) (terms l r cs)).
Definition heat_xx t0 l r al cs t x := rsum (map (fun p => term_xx al t0 l p t x) (terms l r cs)).
Lemma rsum_scal {A} c (g : A -> R) L : rsum (map (fun a => c * g a) L) = c * rsum (map g L).
Proof. induction L as [|a L IH]; cbn [map rsum fold_right]; [ring|]. fold (rsum (map (fun a => c * g a) L)). fold (rsum (map g L)). rewrite IH. ring. Qed.
Lemma heat_dt t0 l r al cs t x : is_derive (fun s => heat_eval t0 l r al cs s x) t (al * heat_xx t0 l r al cs t x).
Proof.
  unfold heat_xx. rewrite <- rsum_scal.
  apply (is_derive_ext (fun s => rsum (map (fun p => term al t0 l p s x) (terms l r cs)))); [intros s; now rewrite heat_eval_terms|].
  apply (rsum_derive (fun p s => term al t0 l p s x) (fun p s => al * term_xx al t0 l p s x)). intros p _. apply term_dt.
Qed.
Lemma heat_dx t0 l r al cs t x : is_derive (fun s => heat_eval t0 l r al cs t s) x (heat_x t0 l r al cs t x).
Proof.
  unfold heat_x. apply (is_derive_ext (fun s => rsum (map (fun p => term al t0 l p t s) (terms l r cs)))); [intros s; now rewrite heat_eval_terms|].
  apply (rsum_derive (fun p s => term al t0 l p t s) (fun p s => term_x al t0 l p t s)). intros p _. apply term_dx.
Qed.
Lemma heat_dxx t0 l r al cs t x : is_derive (fun s => heat_x t0 l r al cs t s) x (heat_xx t0 l r al cs t x).
Proof.
  unfold heat_xx, heat_x. apply (rsum_derive (fun p s => term_x al t0 l p t s) (fun p s => term_xx al t0 l p t s)). intros p _. apply term_dxx.
Qed.
Lemma heat_init_value t0 l r al cs x : heat_eval t0 l r al cs t0 x = sine_eval l r cs x.
Proof. unfold heat_eval, sine_eval. f_equal. apply map_ext. intros [c w]. replace (al * w ^ 2 * (t0 - t0)) with 0 by ring. rewrite exp_0. ring. Qed.
Lemma heat_left t0 l r al cs t : heat_eval t0 l r al cs t l = 0.
Proof.
  unfold heat_eval. generalize (combine cs (frequencies l r (length cs))). intros L. induction L as [|[c w] L IH]; [reflexivity|].
  cbn [map rsum fold_right] in *. unfold rsum in IH. rewrite IH. replace (w * (l - l)) with 0 by ring. rewrite sin_0. ring.
Qed.
Lemma rsum_zero {A} (g : A -> R) L : (forall a, In a L -> g a = 0) -> rsum (map g L) = 0.
Proof. exact (total_zero g L). Qed.
Lemma heat_right t0 l r al cs t : l < r -> heat_eval t0 l r al cs t r = 0.
Proof.
  intros H. unfold heat_eval. apply rsum_zero. intros [c w] Hi. apply in_combine_r in Hi. unfold frequencies in Hi. apply in_map_iff in Hi.
  destruct Hi as (k & <- & _). rewrite (sin_eq_0_1 (PI * INR k / (r - l) * (r - l))); [ring|].
  exists (Z.of_nat k). rewrite <- INR_IZR_INZ. field. lra.
Qed.
Lemma sine_terms l r cs x : sine_eval l r cs x =
  total (map (fun k => nth k cs 0 * sin (PI * INR (S k) / (r - l) * (x - l))) (seq 0 (length cs))).
Proof.
  unfold sine_eval, frequencies. assert (G : forall cs k, rsum (map (fun '(c, w) => c * sin (w * (x - l))) (combine cs (map (fun k => PI * INR k / (r - l)) (seq (S k) (length cs))))) =
    total (map (fun j => nth (j - k) cs 0 * sin (PI * INR (S j) / (r - l) * (x - l))) (seq k (length cs)))).
  { clear cs. induction cs as [|c cs IH]; intros k; [reflexivity|]. cbn [length seq map combine rsum fold_right total].
    rewrite Nat.sub_diag. change (nth 0 (c :: cs) 0) with c. f_equal. fold (rsum (map (fun '(c, w) => c * sin (w * (x - l))) (combine cs (map (fun k => PI * INR k / (r - l)) (seq (S (S k)) (length cs)))))).
    rewrite IH. apply total_ext. intros j Hj. apply in_seq in Hj. replace (j - k)%nat with (S (j - S k)) by lia. reflexivity. }
  rewrite G. apply total_ext. intros j _. now rewrite Nat.sub_0_r.
Qed.
(** Partial derivatives in the plane. *)
Lemma upd2_0 (x : FunExprModel.array) t : upd x [0%nat] t [0%nat] = t. Proof. reflexivity. Qed.
Lemma pd_time (f : R -> R -> R) v x : is_derive (fun t => f t (x [1%nat])) (x [0%nat]) v -> pd [0%nat] (fun y => f (y [0%nat]) (y [1%nat])) x = v.
Proof. intros H. unfold pd. apply is_derive_unique. exact H. Qed.
Lemma pd_space (f : R -> R -> R) v x : is_derive (fun s => f (x [0%nat]) s) (x [1%nat]) v -> pd [1%nat] (fun y => f (y [0%nat]) (y [1%nat])) x = v.
Proof. intros H. unfold pd. apply is_derive_unique. exact H. Qed.
Lemma heat_op_2 al : exists a, heat_op [2%nat] al = Ok (OSum [ODiff (DPartial a); ODiff (DLap false [2%nat] (fun i => if shape_eqb i [0%nat] then 0 else - al))]) /\
  a = MI [2%nat] [1%nat; 0%nat].
Proof. eexists. split; reflexivity. Qed.
Lemma heat_op_sem al L (f ft fx fxx : R -> R -> R) (F : FunExprModel.array -> FunExprModel.array) (x : FunExprModel.array) : heat_op [2%nat] al = Ok L -> (forall y, F y [] = f (y [0%nat]) (y [1%nat])) ->
  (forall t s, is_derive (fun u => f u s) t (ft t s)) -> (forall t s, is_derive (fun u => f t u) s (fx t s)) -> (forall t s, is_derive (fun u => fx t u) s (fxx t s)) ->
  osem L F x [] = ft (x [0%nat]) (x [1%nat]) - al * fxx (x [0%nat]) (x [1%nat]).
Proof.
  intros H E Dt Dx Dxx. destruct (heat_op_2 al) as (a & Ha & ->). rewrite Ha in H. injection H as <-.
  cbn [osem map total fold_right dsem]. replace (fun y : FunExprModel.array => F y []) with (fun y : FunExprModel.array => f (y [0%nat]) (y [1%nat])) by (apply functional_extensionality; intros y; symmetry; apply E).
  unfold pderiv. cbn [mi_shape]. change (all_indices [2%nat]) with [[0%nat]; [1%nat]]. cbn [fold_left map fold_right].
  change (mi_entry (MI [2%nat] [1%nat; 0%nat]) [0%nat]) with 1%nat. change (mi_entry (MI [2%nat] [1%nat; 0%nat]) [1%nat]) with 0%nat.
  cbn [Nat.iter nat_rect]. rewrite (pd_time f _ x (Dt _ _)).
  change (shape_eqb [0%nat] [0%nat]) with true. change (shape_eqb [1%nat] [0%nat]) with false.
  replace (pd [1%nat] (fun y : FunExprModel.array => f (y [0%nat]) (y [1%nat]))) with (fun y : FunExprModel.array => fx (y [0%nat]) (y [1%nat]))
    by (apply functional_extensionality; intros y; symmetry; apply pd_space; apply Dx).
  rewrite (pd_space fx _ x (Dxx _ _)).
 cbn [total fold_right]. ring.
Qed.
