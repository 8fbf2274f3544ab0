(** The array evaluation of every class gives the values of [KernelModel]. *)
From Coq Require Import List Reals Bool Arith ZArith Lia Lra.
From Verif Require Import Base NdArray NdData PolyModel PolyClassModel BlockModel CovModel CrossModel CrossSpec CrossProofs CrossKern ShapedModel ShapedProofs DtypeModel DtypeProps
  PolyCalc FunExprModel DiffopModel LfoModel KernelModel BatchModel BatchSpec BatchProofs.
Import ListNotations.
Open Scope R_scope.

Lemma eqscale_holds sc e b : lens_ok sc (eq_shape e) (eq_len e) -> holds (klen sc) b (eq_shape e) (eq_scale_t sc e) (fun _ j => eq_scale e j).
Proof. intros L. unfold eq_scale_t. apply (tfun_holds (fun l => 1 / (sqrt 2 * l)) false). now apply tlen_holds. Qed.
Lemma mtscale_holds sc m b : lens_ok sc (mt_shape m) (mt_len m) -> holds (klen sc) b (mt_shape m) (mt_scale_t sc m) (fun _ j => mt_scale m j).
Proof. intros L. unfold mt_scale_t. apply (tfun_holds (fun l => sqrt (2 * nu_val (mt_nu m)) / l) false). now apply tlen_holds. Qed.

Ltac hsolve := lazymatch goal with
  | |- holdsd _ _ _ _ (num _) _ => apply num_holds
  | |- holdsd _ _ _ _ (tarr _ _) _ => apply tarr_holds
  | |- holdsd _ _ _ _ (tlen _ _ _) _ => apply tlen_holds; assumption
  | |- holdsd _ _ _ _ (eq_scale_t _ _) _ => apply eqscale_holds; assumption
  | |- holdsd _ _ _ _ (mt_scale_t _ _) _ => apply mtscale_holds; assumption
  | |- holdsd _ _ _ _ (tneg _) _ => apply tneg_holds; hsolve
  | |- holdsd _ _ _ _ (tpow _ _) _ => apply tpow_holds; hsolve
  | |- holdsd _ _ _ _ (tfun _ _) _ => eapply tfun_holds; hsolve
  | |- holdsd _ _ ?b ?s ?a _ =>
      match goal with
      | H : holdsd _ _ b s a _ |- _ => exact H
      | H : forall b s, holdsd _ _ b s a _ |- _ => apply H
      | H : forall b, holdsd _ _ b s a _ |- _ => apply H
      end
  end.
Ltac fin H := cbn [kmax klen andb] in H.
(** One operation; [s] is the shape of a point. *)
Ltac op1 b s e c E H :=
  let A := fresh "A" in let A' := fresh "A" in
  lazymatch e with
  | tbin ?o ?x ?y => eassert (A : holdsd _ _ b s x _) by hsolve; eassert (A' : holdsd _ _ b s y _) by hsolve;
      destruct (tbin_holds o _ _ _ _ b s x y _ _ A A') as (c & E & H); clear A A'
  | tdiv ?x ?y => eassert (A : holdsd _ _ b s x _) by hsolve; eassert (A' : holdsd _ _ b s y _) by hsolve;
      destruct (tdiv_holds _ _ _ _ b s x y _ _ A A') as (c & E & H); clear A A'
  | inplace ?m ?o ?x ?y => eassert (A : holdsd _ _ b s x _) by hsolve; eassert (A' : holdsd _ _ b s y _) by hsolve;
      destruct (inplace_holds m o _ _ _ _ b s x y _ _ A A' eq_refl ltac:(first [right; left; reflexivity|assumption|tauto])) as (c & E & H); clear A A'
  | tsum_last _ ?x => eassert (A : holds Kb b s x _) by hsolve; destruct (tsum_last_batch b s x _ A) as (c & E & H); clear A
  | poly_call ?m ?p ?x => eassert (A : holds Kb b [] x _) by hsolve;
      match goal with V : py_valid p |- _ => destruct (poly_holds m p b x _ V A) as (c & E & H); clear A end
  end.
Ltac step b s :=
  let c := fresh "c" in let E := fresh "E" in let H := fresh "H" in
  lazymatch goal with
  | |- exists _, bind ?e _ = Ok _ /\ _ =>
      lazymatch e with tsum_last _ _ => op1 b s e c E H | _ => first [op1 b (@nil nat) e c E H | op1 b s e c E H] end;
      fin H; rewrite E; cbn [bind]; clear E
  | |- exists _, ?e = Ok _ /\ _ =>
      first [op1 b (@nil nat) e c E H | op1 b s e c E H]; fin H; rewrite E; exists c; split; [reflexivity|]; eapply holds_ext; [exact H|]; clear E
  end.

(** ** Constants *)
Lemma winv_ok sc e w : lens_ok sc (eq_shape e) (eq_len e) ->
  exists c, explap_winv_b sc e w = Ok c /\ forall b, holds Ks b (eq_shape e) c (fun _ j => explap_winv e w j).
Proof.
  intros L. enough (X : exists c, explap_winv_b sc e w = Ok c /\ holds Ks [] (eq_shape e) c (fun _ j => explap_winv e w j)).
  { destruct X as (c & E & H). exists c. split; [exact E|]. apply holds_any; [discriminate|exact H]. }
  unfold explap_winv_b. destruct sc; step (@nil nat) (eq_shape e); step (@nil nat) (eq_shape e); reflexivity.
Qed.
Lemma sfsq_ok sc e w : lens_ok sc (eq_shape e) (eq_len e) ->
  exists c, explap_sfsq_b sc e w = Ok c /\ forall b, holds Ks b (eq_shape e) c (fun _ j => explap_sfsq e w j).
Proof.
  intros L. enough (X : exists c, explap_sfsq_b sc e w = Ok c /\ holds Ks [] (eq_shape e) c (fun _ j => explap_sfsq e w j)).
  { destruct X as (c & E & H). exists c. split; [exact E|]. apply holds_any; [discriminate|exact H]. }
  unfold explap_sfsq_b. destruct (winv_ok sc e w L) as (wi & -> & W). cbn [bind].
  destruct sc; step (@nil nat) (eq_shape e); step (@nil nat) (eq_shape e); reflexivity.
Qed.
Lemma trace_ok sc e w : lens_ok sc (eq_shape e) (eq_len e) ->
  exists c, explap_trace_b sc e w = Ok c /\ nat_ (t_arr c) [] = explap_trace e w /\ forall b s, holds K0 b s c (fun _ _ => explap_trace e w).
Proof.
  intros L. pose proof (winv_ok sc e w L) as (c & E & H). unfold explap_trace_b. unfold explap_winv_b in E.
  destruct (tbin Rmult (num 2) (tarr (eq_shape e) w)) as [a|]; [|discriminate]. cbn [bind] in E |- *. rewrite E. cbn [bind].
  pose proof (tsum_holds _ _ (explap_winv e w) (H [])) as T. exists (tsum c). split; [reflexivity|]. split; [|exact T].
  destruct (T [] []) as (_ & _ & V). exact (V [] [] (Forall2_nil _) (Forall2_nil _)).
Qed.
Lemma laptrace_ok sc e w0 w1 : lens_ok sc (eq_shape e) (eq_len e) ->
  exists c, explaplap_trace_b sc e w0 w1 = Ok c /\ nat_ (t_arr c) [] = explaplap_trace e w0 w1 /\ forall b s, holds K0 b s c (fun _ _ => explaplap_trace e w0 w1).
Proof.
  intros L. unfold explaplap_trace_b. destruct (winv_ok sc e w0 L) as (a & -> & A). destruct (winv_ok sc e w1 L) as (a' & -> & A'). cbn [bind].
  destruct (tbin_holds Rmult _ _ _ _ [] (eq_shape e) _ _ _ _ (A []) (A' [])) as (p & -> & P). cbn [bind kmax] in *.
  pose proof (tsum_holds _ _ (fun j => explap_winv e w0 j * explap_winv e w1 j) P) as T. exists (tsum p). split; [reflexivity|]. split; [|exact T].
  destruct (T [] []) as (_ & _ & V). exact (V [] [] (Forall2_nil _) (Forall2_nil _)).
Qed.
Lemma inprod_ok sc e d0 d1 : lens_ok sc (eq_shape e) (eq_len e) ->
  exists c, expdirdir_inprod_b sc e d0 d1 = Ok c /\ nat_ (t_arr c) [] = expdirdir_inprod e d0 d1 /\ forall b s, holds K0 b s c (fun _ _ => expdirdir_inprod e d0 d1).
Proof.
  intros L. unfold expdirdir_inprod_b.
  assert (X : exists p, bind (tdiv (tarr (eq_shape e) d1) (tpow (tlen sc (eq_shape e) (eq_len e)) 2)) (fun r1 => tbin Rmult (tarr (eq_shape e) d0) r1) = Ok p /\
     holds Ks [] (eq_shape e) p (fun _ j => d0 j * (d1 j / eq_len e j ^ 2))) by (destruct sc; step (@nil nat) (eq_shape e); step (@nil nat) (eq_shape e); reflexivity).
  destruct X as (p & E & P). destruct (tdiv _ _) as [r|]; [|discriminate]. cbn [bind] in E |- *. rewrite E. cbn [bind].
  now apply tsum_last_point.
Qed.

Lemma dirs_ok sc k v : lens_ok sc (mt_shape k) (mt_len k) ->
  exists c, tbin Rmult (mt_scale_t sc k) (tarr (mt_shape k) v) = Ok c /\ forall b, holds Ks b (mt_shape k) c (fun _ j => mt_scale k j * v j).
Proof.
  intros L. enough (X : exists c, tbin Rmult (mt_scale_t sc k) (tarr (mt_shape k) v) = Ok c /\ holds Ks [] (mt_shape k) c (fun _ j => mt_scale k j * v j)).
  { destruct X as (c & E & H). exists c. split; [exact E|]. apply holds_any; [discriminate|exact H]. }
  destruct sc; step (@nil nat) (mt_shape k); reflexivity.
Qed.
Lemma dirprod_ok k v v' s0 s1 : holds Ks [] (mt_shape k) s0 (fun _ j => mt_scale k j * v j) -> holds Ks [] (mt_shape k) s1 (fun _ j => mt_scale k j * v' j) ->
  exists c, tbin Rmult s0 s1 = Ok c /\ forall b s, holds K0 b s (tsum c) (fun _ _ => matdirdir_inprod k v v').
Proof.
  intros H H'. destruct (tbin_holds Rmult _ _ _ _ _ _ _ _ _ _ H H') as (c & E & C). exists c. split; [exact E|].
  exact (tsum_holds _ _ (fun j => mt_scale k j * v j * (mt_scale k j * v' j)) C).
Qed.
Lemma udirdir_ok sc k v v' : size (mt_shape k) = 1%nat -> lens_ok sc (mt_shape k) (mt_len k) ->
  exists p p' f, tbin Rmult (tarr (mt_shape k) v) (tarr (mt_shape k) v') = Ok p /\ tbin Rmult p (tpow (mt_scale_t sc k) 2) = Ok p' /\ tsqueeze p' = Ok f /\
    nat_ (t_arr f) [] = umatdirdir_prod k v v' /\ forall b s, holds K0 b s f (fun _ _ => umatdirdir_prod k v v').
Proof.
  intros Z L. destruct (tbin_holds Rmult _ _ _ _ [] (mt_shape k) _ _ _ _ (tarr_holds v [] _) (tarr_holds v' [] _)) as (p & E & P). cbn [kmax] in P.
  destruct (tbin_holds Rmult _ _ _ _ _ _ _ _ _ _ P (tpow_holds 2 _ _ _ _ _ _ (mtscale_holds sc k [] L))) as (p' & E' & P').
  replace (kmax Ks (klen sc)) with Ks in P' by now destruct sc.
  destruct (tsqueeze_holds _ _ (fun j => v j * v' j * mt_scale k j ^ 2) Z P') as (f & E'' & W & F). now exists p, p', f.
Qed.
Lemma ulap_ok sc k w : size (mt_shape k) = 1%nat -> lens_ok sc (mt_shape k) (mt_len k) ->
  exists p p' f, tbin Rmult (tarr (mt_shape k) w) (mt_scale_t sc k) = Ok p /\ tbin Rmult p (mt_scale_t sc k) = Ok p' /\ tsqueeze p' = Ok f /\
    nat_ (t_arr f) [] = umatlap_factor k w /\ forall b s, holds K0 b s f (fun _ _ => umatlap_factor k w).
Proof.
  intros Z L. destruct (tbin_holds Rmult _ _ _ _ [] (mt_shape k) _ _ _ _ (tarr_holds w [] _) (mtscale_holds sc k [] L)) as (p & E & P).
  replace (kmax Ks (klen sc)) with Ks in P by now destruct sc.
  destruct (tbin_holds Rmult _ _ _ _ _ _ _ _ _ _ P (mtscale_holds sc k [] L)) as (p' & E' & P').
  replace (kmax Ks (klen sc)) with Ks in P' by now destruct sc.
  destruct (tsqueeze_holds _ _ (fun j => w j * mt_scale k j * mt_scale k j) Z P') as (f & E'' & W & F). now exists p, p', f.
Qed.
Lemma ulaplap_ok sc k w w' : size (mt_shape k) = 1%nat -> lens_ok sc (mt_shape k) (mt_len k) ->
  exists p p' f, tbin Rmult (tarr (mt_shape k) w) (tarr (mt_shape k) w') = Ok p /\ tbin Rmult p (tpow (mt_scale_t sc k) 4) = Ok p' /\ tsqueeze p' = Ok f /\
    nat_ (t_arr f) [] = umatlaplap_factor k w w' /\ forall b s, holds K0 b s f (fun _ _ => umatlaplap_factor k w w').
Proof.
  intros Z L. destruct (tbin_holds Rmult _ _ _ _ [] (mt_shape k) _ _ _ _ (tarr_holds w [] _) (tarr_holds w' [] _)) as (p & E & P). cbn [kmax] in P.
  destruct (tbin_holds Rmult _ _ _ _ _ _ _ _ _ _ P (tpow_holds 4 _ _ _ _ _ _ (mtscale_holds sc k [] L))) as (p' & E' & P').
  replace (kmax Ks (klen sc)) with Ks in P' by now destruct sc.
  destruct (tsqueeze_holds _ _ (fun j => w j * w' j * mt_scale k j ^ 4) Z P') as (f & E'' & W & F). now exists p, p', f.
Qed.
Lemma udirlap_ok sc k v w r : lens_ok sc (mt_shape k) (mt_len k) ->
  exists c, umatdirlap_scaled_b sc k v w r = Ok c /\ forall b, holds Ks b (mt_shape k) c (fun _ j => umatdirlap_scaled k v w r j).
Proof.
  intros L. enough (X : exists c, umatdirlap_scaled_b sc k v w r = Ok c /\ holds Ks [] (mt_shape k) c (fun _ j => umatdirlap_scaled k v w r j)).
  { destruct X as (c & E & H). exists c. split; [exact E|]. apply holds_any; [discriminate|exact H]. }
  unfold umatdirlap_scaled_b. destruct sc, r; repeat step (@nil nat) (mt_shape k); try (eexists; split; [reflexivity|]; eapply holds_ext; [eassumption|]); reflexivity.
Qed.

Section Pair.
Variables (m : mode) (sc : bool) (x0 y : tnd) (b0 b1 b : shape).
Hypothesis B : broadcast_shapes b0 b1 = Ok b.
Notation P := (fun i => pt (F := RF) (t_arr x0) (operand_index b0 i)).
Notation Q := (fun i => pt (F := RF) (t_arr y) (operand_index b1 i)).
Notation pairs s := (t_shape x0 = b0 ++ s /\ t_shape y = b1 ++ s).
(** The difference of the arrays consists of floats, or JAX is used. *)
Notation flt := (m = Jax \/ t_int x0 && t_int y = false).
(** The same, or there is one pair of numbers. *)
Notation flt0 s := (m = Jax \/ t_int x0 && t_int y = false \/ b ++ s = []).
(** The result of an evaluation at two arrays. *)
Notation gives r f := (exists c, r = Ok c /\ holds Kb b [] c (fun i _ => f (P i) (Q i))).
Ltac start S0 S1 s := destruct (diffs_holds x0 y b0 b1 b s S0 S1 B) as (d & Ed & Hd).

Lemma sq_dists_ok s scale g k : flt -> pairs s -> holds k b s scale (fun _ j => g j) ->
  gives (sq_dists m (length s) scale x0 (Some y)) (fun p q => bnorm_sq s (fun j => vdiff p q j * g j)).
Proof.
  intros N [S0 S1] H. start S0 S1 s. unfold sq_dists. rewrite Ed. cbn [bind]. pose proof Hd as (Id & _). rewrite Id.
  replace (match m with NumPy => t_int x0 && t_int y | Jax => false end) with false by (destruct N as [-> | ->]; [reflexivity|now destruct m]).
  destruct (t_int x0 && t_int y); step b s; step b s; reflexivity.
Qed.
Lemma dists_ok k : flt -> lens_ok sc (mt_shape k) (mt_len k) -> pairs (mt_shape k) ->
  gives (dists m (length (mt_shape k)) (mt_scale_t sc k) x0 (Some y)) (mt_dist k).
Proof.
  intros N L S. unfold dists. destruct (sq_dists_ok _ _ _ _ N S (mtscale_holds sc k b L)) as (c & -> & H). cbn [bind].
  eexists. split; [reflexivity|]. exact (tfun_holds sqrt _ _ _ _ _ _ H).
Qed.
Lemma expquad_ok e : flt -> lens_ok sc (eq_shape e) (eq_len e) -> pairs (eq_shape e) -> gives (expquad_b m sc e x0 (Some y)) (expquad_eval e).
Proof.
  intros N L S. unfold expquad_b. destruct (sq_dists_ok _ _ _ _ N S (eqscale_holds sc e b L)) as (c & -> & H). cbn [bind].
  eexists. split; [reflexivity|]. exact (tfun_holds exp _ _ _ _ _ _ (tneg_holds _ _ _ _ _ _ H)).
Qed.
Lemma expdir_ok e v r : lens_ok sc (eq_shape e) (eq_len e) -> pairs (eq_shape e) -> gives (expdir_b sc e v r x0 (Some y)) (expdir_eval e v r).
Proof.
  intros L [S0 S1]. start S0 S1 (eq_shape e). unfold expdir_b. rewrite Ed. cbn [bind].
  destruct (t_int x0 && t_int y), sc, r; repeat step b (eq_shape e); intros; reflexivity.
Qed.
Lemma expdirdir_ok e v v' : lens_ok sc (eq_shape e) (eq_len e) -> pairs (eq_shape e) -> gives (expdirdir_b sc e v v' x0 (Some y)) (expdirdir_eval e v v').
Proof.
  intros L [S0 S1]. start S0 S1 (eq_shape e). unfold expdirdir_b. destruct (inprod_ok sc e v v' L) as (ip & -> & _ & IP). cbn [bind]. rewrite Ed. cbn [bind].
  destruct (t_int x0 && t_int y), sc; repeat step b (eq_shape e); intros; reflexivity.
Qed.
Lemma explap_ok e w : lens_ok sc (eq_shape e) (eq_len e) -> pairs (eq_shape e) -> gives (explap_b sc e w x0 (Some y)) (explap_eval e w).
Proof.
  intros L [S0 S1]. start S0 S1 (eq_shape e). unfold explap_b. destruct (trace_ok sc e w L) as (tr & -> & _ & TR). cbn [bind]. rewrite Ed. cbn [bind].
  destruct (sfsq_ok sc e w L) as (sf & -> & SF). cbn [bind]. destruct (t_int x0 && t_int y), sc; repeat step b (eq_shape e); intros; reflexivity.
Qed.
Lemma explaplap_ok e w w' : lens_ok sc (eq_shape e) (eq_len e) -> pairs (eq_shape e) -> gives (explaplap_b sc e w w' x0 (Some y)) (explaplap_eval e w w').
Proof.
  intros L [S0 S1]. start S0 S1 (eq_shape e). unfold explaplap_b.
  destruct (trace_ok sc e w L) as (tr & -> & _ & TR). destruct (trace_ok sc e w' L) as (tr' & -> & _ & TR').
  destruct (laptrace_ok sc e w w' L) as (trr & -> & _ & TRR). cbn [bind]. rewrite Ed. cbn [bind].
  destruct (sfsq_ok sc e w L) as (sf & -> & SF). destruct (sfsq_ok sc e w' L) as (sf' & -> & SF'). destruct (winv_ok sc e w' L) as (wi & -> & WI). cbn [bind].
  destruct (t_int x0 && t_int y), sc; repeat step b (eq_shape e); intros; reflexivity.
Qed.
Lemma checked_ok s ev f : pairs s -> gives (ev x0 (Some y)) f -> gives (checked s ev x0 (Some y)) f.
Proof.
  intros [S0 S1] (a & E & H). unfold checked. unfold t_shape in S0, S1.
  rewrite (check_ok s (t_arr x0) (Some (t_arr y)) b0 b1 b (conj S0 S1) B : check_shapes s (t_arr x0) (option_map t_arr (Some y)) = _). cbn [bind]. rewrite E. cbn [bind].
  pose proof H as (_ & S & _). cbn [kshape] in S. rewrite app_nil_r in S. rewrite S, shape_eqb_refl. eauto.
Qed.
Lemma expdirlap_ok e v w r : flt -> lens_ok sc (eq_shape e) (eq_len e) -> pairs (eq_shape e) -> gives (expdirlap_b m sc e v w r x0 (Some y)) (expdirlap_eval e v w r).
Proof.
  intros N L S. pose proof S as [S0 S1]. start S0 S1 (eq_shape e). unfold expdirlap_b. rewrite Ed. cbn [bind].
  destruct (winv_ok sc e w L) as (wi & -> & WI). cbn [bind].
  destruct (checked_ok _ _ _ S (expquad_ok e N L S)) as (k0 & -> & K). destruct (checked_ok _ _ _ S (explap_ok e w L S)) as (k1 & -> & K').
  cbn [bind]. destruct (t_int x0 && t_int y), sc; repeat step b (eq_shape e);
  (eexists; split; [reflexivity|]; destruct r; [eapply holds_ext; [apply tneg_holds; eassumption|]|eapply holds_ext; [eassumption|]]; intros; reflexivity).
Qed.

(** Horner's scheme *)
Lemma horner_ok r g cs : holds Kb b [] r g -> forall k a h, holds k b [] a h -> k <> Ks ->
  exists c k', horner_b a cs r = Ok c /\ k' <> Ks /\ holds k' b [] c (fun i j => fold_left (hstep (g i j)) cs (h i j)).
Proof.
  intros Hr. induction cs as [|x cs IH]; intros k a h H N; cbn [horner_b fold_left]; [eauto|].
  destruct (tbin_holds Rmult _ _ _ _ _ _ _ _ _ _ H Hr) as (c & -> & C). cbn [bind].
  destruct (tbin_holds Rplus _ _ _ _ _ _ _ _ _ _ C (num_holds x b [])) as (c' & -> & C'). cbn [bind].
  apply (IH _ _ _ C'). destruct k; cbn; congruence.
Qed.
Lemma profile_ok s r g : (m = NumPy \/ exists p, s = HalfInt p) -> holds Kb b [] r g ->
  exists c, match s with
    | HalfInt p => match rev (map Qc2R (half_integer_coefficients p)) with
                   | [] => Err IndexError | c :: cs => bind (horner_b (num c) cs r) (fun a => tbin Rmult a (tfun exp (tneg r))) end
    | OtherNu _ f => match m with NumPy => Ok (tfun f r) | Jax => Err NotImplementedError end end = Ok c
    /\ holds Kb b [] c (fun i j => matern_profile s (g i j)).
Proof.
  intros M Hr. destruct s as [p|nu f].
  - cbn [matern_profile].
    assert (FC : float_coeffs (make_rational (half_integer_coefficients p)) = map Qc2R (half_integer_coefficients p)).
    { unfold make_rational, mkpoly, half_integer_coefficients. rewrite Nat.add_1_r. reflexivity. }
    destruct (rev (map Qc2R (half_integer_coefficients p))) as [|c cs] eqn:E.
    { exfalso. unfold half_integer_coefficients in E. apply (f_equal (@length R)) in E. rewrite rev_length, !map_length, seq_length in E. cbn in E. lia. }
    destruct (horner_ok r g cs Hr K0 (num c) _ (num_holds c b []) ltac:(discriminate)) as (a & k & -> & N & H). cbn [bind].
    destruct (tbin_holds Rmult _ _ _ _ _ _ _ _ _ _ H (tfun_holds exp _ _ _ _ _ _ (tneg_holds _ _ _ _ _ _ Hr))) as (z & -> & Z). exists z. split; [reflexivity|].
    replace (kmax k Kb) with Kb in Z by now destruct k. eapply holds_ext; [exact Z|]. intros i j _ _. cbn beta. f_equal. symmetry. apply py_eval_horner.
    change (car RF) with R in *. rewrite FC. exact E.
  - destruct M as [->|[p M]]; [|discriminate]. eexists. split; [reflexivity|]. exact (tfun_holds f _ _ _ _ _ _ Hr).
Qed.
Lemma matern_ok k : flt -> (m = NumPy \/ exists p, mt_nu k = HalfInt p) -> lens_ok sc (mt_shape k) (mt_len k) -> pairs (mt_shape k) ->
  gives (matern_b m sc k x0 (Some y)) (matern_eval k).
Proof.
  intros N M L S. unfold matern_b. destruct (dists_ok k N L S) as (r & -> & Hr). cbn [bind]. destruct (profile_ok _ _ _ M Hr) as (c & E & C). eauto.
Qed.
Lemma matdir_ok k v r q : flt0 (mt_shape k) -> py_valid q -> lens_ok sc (mt_shape k) (mt_len k) -> pairs (mt_shape k) -> gives (matdir_b m sc k v r q x0 (Some y)) (matdir_eval k v r q).
Proof.
  intros N V L [S0 S1]. start S0 S1 (mt_shape k). unfold matdir_b. rewrite Ed. cbn [bind].
  destruct (t_int x0 && t_int y), sc, r; repeat step b (mt_shape k); cbn [bind]; repeat step b (mt_shape k); intros; reflexivity.
Qed.
Lemma matdirdir_ok k v v' q q' : flt0 (mt_shape k) -> py_valid q -> py_valid q' -> lens_ok sc (mt_shape k) (mt_len k) -> pairs (mt_shape k) ->
  gives (matdirdir_b m sc k v v' q q' x0 (Some y)) (matdirdir_eval k v v' q q').
Proof.
  intros N V V' L [S0 S1]. start S0 S1 (mt_shape k). unfold matdirdir_b.
  destruct (dirs_ok sc k v L) as (s0 & -> & D0). destruct (dirs_ok sc k v' L) as (s1 & -> & D1). cbn [bind].
  destruct (dirprod_ok k v v' s0 s1 (D0 []) (D1 [])) as (s01 & -> & IP). cbn [bind]. rewrite Ed. cbn [bind].
  destruct (t_int x0 && t_int y), sc; repeat step b (mt_shape k); intros; reflexivity.
Qed.
Lemma umatdirdir_ok k v v' q : flt -> py_valid q -> size (mt_shape k) = 1%nat -> lens_ok sc (mt_shape k) (mt_len k) -> pairs (mt_shape k) ->
  gives (umatdirdir_b m sc k v v' q x0 (Some y)) (umatdirdir_eval k v v' q).
Proof.
  intros N V Z L S. unfold umatdirdir_b. destruct (udirdir_ok sc k v v' Z L) as (p & p' & f & -> & E' & E'' & _ & F). cbn [bind]. rewrite E'. cbn [bind]. rewrite E''. cbn [bind].
  destruct (dists_ok k N L S) as (r & -> & Hr). cbn [bind]. repeat step b (mt_shape k); intros; reflexivity.
Qed.
Lemma umatlap_ok k w q : flt -> py_valid q -> size (mt_shape k) = 1%nat -> lens_ok sc (mt_shape k) (mt_len k) -> pairs (mt_shape k) ->
  gives (umatlap_b m sc k w q x0 (Some y)) (umatlap_eval k w q).
Proof.
  intros N V Z L S. unfold umatlap_b. destruct (ulap_ok sc k w Z L) as (p & p' & f & -> & E' & E'' & _ & F). cbn [bind]. rewrite E'. cbn [bind]. rewrite E''. cbn [bind].
  destruct (dists_ok k N L S) as (r & -> & Hr). cbn [bind]. repeat step b (mt_shape k); intros; reflexivity.
Qed.
Lemma umatlaplap_ok k w w' q : flt -> py_valid q -> size (mt_shape k) = 1%nat -> lens_ok sc (mt_shape k) (mt_len k) -> pairs (mt_shape k) ->
  gives (umatlaplap_b m sc k w w' q x0 (Some y)) (umatlaplap_eval k w w' q).
Proof.
  intros N V Z L S. unfold umatlaplap_b. destruct (ulaplap_ok sc k w w' Z L) as (p & p' & f & -> & E' & E'' & _ & F). cbn [bind]. rewrite E'. cbn [bind]. rewrite E''. cbn [bind].
  destruct (dists_ok k N L S) as (r & -> & Hr). cbn [bind]. repeat step b (mt_shape k); intros; reflexivity.
Qed.
Lemma umatdirlap_ok k v w r q : flt0 (mt_shape k) -> py_valid q -> lens_ok sc (mt_shape k) (mt_len k) -> pairs (mt_shape k) ->
  gives (umatdirlap_b m sc k v w r q x0 (Some y)) (umatdirlap_eval k v w r q).
Proof.
  intros N V L [S0 S1]. start S0 S1 (mt_shape k). unfold umatdirlap_b. rewrite Ed. cbn [bind].
  destruct (udirlap_ok sc k v w r L) as (sd & -> & SD). cbn [bind].
  destruct (t_int x0 && t_int y), sc; repeat step b (mt_shape k); intros; reflexivity.
Qed.
End Pair.
