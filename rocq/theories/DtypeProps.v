(** C50: evaluation at integers and at floats. *)
From Coq Require Import List Reals Lra Lia Bool Arith ZArith.
From Verif Require Import Base PolyModel PolySpec PolyProofs PolyClassModel PolyCalc PiecewiseModel PiecewiseSpec PiecewiseProofs DtypeModel.
Import ListNotations.
Open Scope R_scope.

(** [z] is [r] rounded towards zero. *)
Definition toward_zero (r : R) (z : Z) : Prop := Rabs (IZR z) <= Rabs r < Rabs (IZR z) + 1 /\ 0 <= r * IZR z.
Lemma trunc_toward_zero r : toward_zero r (trunc r).
Proof.
  assert (P : forall s, 0 <= s -> 0 <= IZR (Int_part s) <= s /\ s < IZR (Int_part s) + 1).
  { intros s Hs. destruct (base_Int_part s) as [H1 H2].
    assert (-1 < Int_part s)%Z by (apply lt_IZR; lra). assert (0 <= IZR (Int_part s)) by (apply IZR_le; lia). lra. }
  unfold toward_zero, trunc. destruct (Rleb_spec 0 r).
  - destruct (P r r0) as [H1 H2]. rewrite (Rabs_pos_eq r), Rabs_pos_eq by lra. split; [lra|]. apply Rmult_le_pos; lra.
  - destruct (P (- r)) as [H1 H2]; [lra|]. rewrite opp_IZR, Rabs_Ropp, (Rabs_pos_eq (IZR _)), (Rabs_left r) by lra. split; [lra|].
    replace (r * - IZR (Int_part (- r))) with (- r * IZR (Int_part (- r))) by ring. apply Rmult_le_pos; lra.
Qed.
Lemma toward_zero_unique r z z' : toward_zero r z -> toward_zero r z' -> z = z'.
Proof.
  intros [[A1 A2] A3] [[B1 B2] B3].
  assert (E : Z.abs z = Z.abs z').
  { rewrite <- !abs_IZR in *. assert (IZR (Z.abs z) < IZR (Z.abs z') + 1) by lra. assert (IZR (Z.abs z') < IZR (Z.abs z) + 1) by lra.
    assert (Z.abs z < Z.abs z' + 1)%Z by (apply lt_IZR; rewrite plus_IZR; lra). assert (Z.abs z' < Z.abs z + 1)%Z by (apply lt_IZR; rewrite plus_IZR; lra). lia. }
  destruct (Z.eq_dec z z') as [|N]; [assumption|]. assert (z' = (- z)%Z) as -> by lia. assert (z <> 0)%Z by lia. rewrite opp_IZR in B3.
  assert (r * IZR z = 0) by lra. apply Rmult_integral in H0. destruct H0 as [->|H0]; [|apply eq_IZR in H0; lia].
  rewrite Rabs_R0 in A1. rewrite <- abs_IZR in A1. assert (Z.abs z <= 0)%Z by (apply le_IZR; lra). lia.
Qed.
Lemma trunc_IZR z : trunc (IZR z) = z.
Proof.
  apply (toward_zero_unique (IZR z)); [apply trunc_toward_zero|]. split; [lra|]. assert (H := Rle_0_sqr (IZR z)). unfold Rsqr in H. lra.
Qed.

(** Horner's scheme on the reversed coefficients. *)
Lemma rev_coeffs (p : list R) : p <> [] -> rev p = pcoef (F := RF) p (pdegree (F := RF) p) :: map (pcoef (F := RF) p) (rev (seq 0 (pdegree (F := RF) p))).
Proof.
  intros H. assert (E : p = map (pcoef (F := RF) p) (seq 0 (length p))).
  { apply (nth_ext _ _ 0 (pcoef (F := RF) p 0)); [now rewrite map_length, seq_length|]. intros n Hn.
    rewrite (map_nth (pcoef (F := RF) p)), seq_nth by exact Hn. reflexivity. }
  rewrite E at 1. unfold pdegree. destruct (length p) as [|n] eqn:L; [apply length_zero_iff_nil in L; contradiction|].
  replace (@length (car RF) p - 1)%nat with n by (change (@length (car RF) p) with (@length R p); lia).
  rewrite seq_S, map_app, rev_app_distr. cbn [map rev app]. rewrite Nat.add_0_l. f_equal. now rewrite map_rev.
Qed.
Definition hstep (x a c : R) : R := a * x + c.
Lemma py_eval_horner p c cs x : rev (float_coeffs p) = c :: cs -> py_eval p x = fold_left (hstep x) cs c.
Proof.
  intros E. assert (H : float_coeffs p <> []) by (intros X; rewrite X in E; discriminate).
  pose proof (rev_coeffs (float_coeffs p) H) as E'. change (car RF) with R in *. rewrite E in E'. injection E' as -> ->.
  unfold py_eval, peval. generalize (pcoef (F := RF) (float_coeffs p) (pdegree (F := RF) (float_coeffs p))).
  generalize (rev (seq 0 (pdegree (F := RF) (float_coeffs p)))). intros l. induction l as [|k l IH]; intros a; [reflexivity|]. cbn [fold_left map]. apply IH.
Qed.
Lemma zip_map {A B C D} (f : A -> B -> C) (g : D -> A) (h : D -> B) l : zip f (map g l) (map h l) = map (fun d => f (g d) (h d)) l.
Proof. induction l as [|d l IH]; cbn; [|rewrite IH]; reflexivity. Qed.
Lemma zip_self {A C D} (f : A -> D -> C) (g : D -> A) l : zip f (map g l) l = map (fun d => f (g d) d) l.
Proof. induction l as [|d l IH]; cbn; [|rewrite IH]; reflexivity. Qed.
Lemma np_horner_float xs cs : forall h : R -> R, np_horner (AF (map h xs)) cs (AF xs) = Ok (AF (map (fun x => fold_left (hstep x) cs (h x)) xs)).
Proof.
  induction cs as [|c cs IH]; intros h; [reflexivity|]. cbn [np_horner imul iadd bind floats].
  rewrite zip_self, map_map. exact (IH (fun x => hstep x (h x) c)).
Qed.
Lemma np_poly_float p xs : py_valid p -> np_poly p (AF xs) = Ok (AF (map (py_eval p) xs)).
Proof.
  intros V. unfold np_poly. destruct (rev (float_coeffs p)) as [|c cs] eqn:E; [apply (f_equal (@rev _)) in E; rewrite rev_involutive in E; contradiction|].
  cbn [full_like]. rewrite np_horner_float. f_equal. f_equal. apply map_ext. intros x. symmetry. now apply py_eval_horner.
Qed.
Lemma np_poly_int p zs v : np_poly p (AI zs) = Ok v -> exists c, float_coeffs p = [c] /\ v = AI (map (fun _ => trunc c) zs).
Proof.
  unfold np_poly. destruct (rev (float_coeffs p)) as [|c [|c' cs]] eqn:E; [discriminate| |].
  - intros [= <-]. exists c. split; [|reflexivity]. apply (f_equal (@rev _)) in E. now rewrite rev_involutive in E.
  - cbn. discriminate.
Qed.

(** In-place operations keep the dtype of their target: they fail exactly if the result is
    a float but the target holds integers. *)
Definition is_float (a : darr) : bool := match a with AF _ => true | AI _ => false end.
Theorem C50_in_place : forall res x c,
  match imul res x with
  | Ok r => is_float r = is_float res /\ floats r = zip Rmult (floats res) (floats x)
  | Err e => e = TypeError /\ is_float res = false /\ is_float x = true
  end /\
  match iadd res c with
  | Ok r => is_float r = is_float res /\ floats r = map (fun y => y + c) (floats res)
  | Err e => e = TypeError /\ is_float res = false
  end.
Proof.
  intros [r|r] [z|z] c; cbn [imul iadd is_float floats]; repeat split.
  all: try (revert z; induction r as [|a r IH]; intros [|b z]; cbn; [reflexivity..|]; now rewrite IH, mult_IZR).
Qed.
(** Polynomials. *)
Theorem C50_polynomial_floats : forall p xs, py_valid p -> np_poly p (AF xs) = Ok (AF (map (py_eval p) xs)).
Proof. exact np_poly_float. Qed.
(** At integers the evaluation only succeeds for constants, and the result is the float
    result rounded towards zero. *)
Theorem C50_polynomial_integers : forall p zs a, np_poly p (AI zs) = Ok a ->
  py_degree p = 0%nat /\ exists ys, a = AI ys /\ Forall2 (fun z y => toward_zero (py_eval p (IZR z)) y) zs ys.
Proof.
  intros p zs a H. apply np_poly_int in H. destruct H as (c & E & ->). split; [unfold py_degree, pdegree; now rewrite E|].
  eexists. split; [reflexivity|]. induction zs as [|z zs IH]; cbn [map]; constructor; [|exact IH].
  rewrite (py_eval_horner p c []) by now rewrite E. apply trunc_toward_zero.
Qed.
Theorem C50_polynomial_integers_fail_refuted : forall p zs, (1 <= py_degree p)%nat -> np_poly p (AI zs) = Err TypeError.
Proof.
  intros p zs H. unfold np_poly. unfold py_degree, pdegree in H.
  destruct (rev (float_coeffs p)) as [|c [|c' cs]] eqn:E; [| |reflexivity];
    apply (f_equal (@length _)) in E; rewrite rev_length in E; cbn in E, H; change (car RF) with R in *; lia.
Qed.
Theorem C50_polynomial_truncated_refuted : exists p z y, np_poly p (AI [z]) = Ok (AI [y]) /\ np_poly p (AF [IZR z]) <> Ok (AF [IZR y]).
Proof.
  exists (make_float [0.5]), 1%Z, 0%Z. assert (T : trunc 0.5 = 0%Z).
  { apply (toward_zero_unique 0.5); [apply trunc_toward_zero|]. split; [rewrite Rabs_R0, Rabs_pos_eq; lra|lra]. }
  split.
  - unfold np_poly. cbn [make_float float_coeffs mkpoly rev app np_horner full_like map]. now rewrite T.
  - rewrite np_poly_float by discriminate. intros [= E]. rewrite (py_eval_horner _ 0.5 []) in E by reflexivity. cbn in E. lra.
Qed.
(** A constant with an integer value is evaluated exactly. *)
Theorem C50_constant_integers : forall k zs, np_poly (make_float [IZR k]) (AI zs) = Ok (AI (map (fun _ => k) zs)).
Proof. intros k zs. unfold np_poly. cbn [make_float float_coeffs mkpoly rev app np_horner full_like]. now rewrite trunc_IZR. Qed.
(** The JAX version does not fail, but the leading coefficient is rounded towards zero. *)
Lemma jax_horner_float xs cs : forall h : R -> R, jax_horner (AF (map h xs)) cs (AF xs) = AF (map (fun x => fold_left (hstep x) cs (h x)) xs).
Proof.
  induction cs as [|c cs IH]; intros h; [reflexivity|]. cbn [jax_horner jmul jadd floats].
  rewrite zip_self. unfold jadd. cbn [floats]. rewrite map_map. exact (IH (fun x => hstep x (h x) c)).
Qed.
Lemma jax_horner_int zs cs : forall h : R -> R, jax_horner (AF (map h (map IZR zs))) cs (AI zs) = AF (map (fun x => fold_left (hstep x) cs (h x)) (map IZR zs)).
Proof.
  induction cs as [|c cs IH]; intros h; [reflexivity|]. cbn [jax_horner jmul jadd floats].
  rewrite zip_self. unfold jadd. cbn [floats]. rewrite map_map. exact (IH (fun x => hstep x (h x) c)).
Qed.
Theorem C50_jax_floats : forall p xs, py_valid p -> jax_poly p (AF xs) = Ok (AF (map (py_eval p) xs)).
Proof.
  intros p xs V. unfold jax_poly. destruct (rev (float_coeffs p)) as [|c cs] eqn:E; [apply (f_equal (@rev _)) in E; rewrite rev_involutive in E; contradiction|].
  cbn [full_like]. rewrite jax_horner_float. f_equal. f_equal. apply map_ext. intros x. symmetry. now apply py_eval_horner.
Qed.
Lemma hstep_lead x cs : forall a b, fold_left (hstep x) cs a = fold_left (hstep x) cs b + (a - b) * x ^ length cs.
Proof. induction cs as [|c cs IH]; intros a b; cbn [fold_left length pow]; [ring|]. rewrite (IH (hstep x a c) (hstep x b c)). unfold hstep. ring. Qed.
Theorem C50_jax_integers : forall p zs, (1 <= py_degree p)%nat -> exists k,
  toward_zero (nth (py_degree p) (float_coeffs p) 0) k /\
  jax_poly p (AI zs) = Ok (AF (map (fun z => py_eval p (IZR z) - (nth (py_degree p) (float_coeffs p) 0 - IZR k) * IZR z ^ py_degree p) zs)).
Proof.
  intros p zs H. assert (V : float_coeffs p <> []). { intros E. unfold py_degree, pdegree in H. rewrite E in H. cbn in H. lia. }
  pose proof (rev_coeffs (float_coeffs p) V) as E. exists (trunc (nth (py_degree p) (float_coeffs p) 0)). split; [apply trunc_toward_zero|].
  unfold jax_poly. change (car RF) with R in *. rewrite E. unfold pcoef at 1. fold (py_degree p). change (@f0 RF) with 0. change (car RF) with R.
  set (c := nth (py_degree p) (float_coeffs p) 0). set (cs := map _ _).
  assert (L : length cs = py_degree p) by (unfold cs; now rewrite map_length, rev_length, seq_length).
  f_equal. cbn [full_like]. destruct cs as [|c0 cs'] eqn:Ecs; [cbn in L; lia|]. cbn [jax_horner jmul].
  assert (Z1 : jadd (AI (zip Z.mul (map (fun _ => trunc c) zs) zs)) c0 = AF (map (fun x => hstep x (IZR (trunc c)) c0) (map IZR zs))).
  { unfold jadd. cbn [floats]. f_equal. rewrite zip_self, !map_map. apply map_ext. intros z. unfold hstep. now rewrite mult_IZR. }
  transitivity (jax_horner (AF (map (fun x => hstep x (IZR (trunc c)) c0) (map IZR zs))) cs' (AI zs)); [rewrite <- Z1; reflexivity|].
  rewrite jax_horner_int. f_equal. rewrite map_map. apply map_ext. intros z.
  assert (E' : rev (float_coeffs p) = c :: c0 :: cs') by (rewrite <- Ecs; exact E).
  rewrite (py_eval_horner p c (c0 :: cs') (IZR z) E').
  change (fold_left (hstep (IZR z)) cs' (hstep (IZR z) (IZR (trunc c)) c0)) with (fold_left (hstep (IZR z)) (c0 :: cs') (IZR (trunc c))).
  rewrite (hstep_lead (IZR z) (c0 :: cs') c (IZR (trunc c))). rewrite L. match goal with |- @eq _ ?a ?b => change (@eq R a b) end.
  change (nth (py_degree p) (float_coeffs p) 0) with c.
  unfold Rminus. ring.
Qed.
Theorem C50_jax_truncated_refuted : exists p z y, jax_poly p (AI [z]) = Ok (AF [y]) /\ y <> py_eval p (IZR z).
Proof.
  exists (make_float [0; 0.5]), 2%Z. destruct (C50_jax_integers (make_float [0; 0.5]) [2%Z]) as (k & T & E); [cbn; lia|].
  cbn in T. assert (k = 0%Z) as ->. { apply (toward_zero_unique 0.5); [exact T|]. split; [rewrite Rabs_R0, Rabs_pos_eq; lra|lra]. }
  eexists. split; [exact E|]. cbn. lra.
Qed.
(** Monomials keep integers exact. *)
Theorem C50_monomial : forall n zs xs, np_monomial n (AF xs) = AF (map (fun x => x ^ n) xs) /\ exists ys, np_monomial n (AI zs) = AI ys /\ Forall2 (fun z y => IZR y = IZR z ^ n) zs ys.
Proof.
  intros n zs xs. split; [reflexivity|]. eexists. split; [reflexivity|]. induction zs as [|z zs IH]; cbn [map]; constructor; [|exact IH]. now rewrite <- pow_IZR.
Qed.

(** Piecewise functions. *)
Lemma assign_map {A B} (pts : list A) (c : A -> bool) (h g : A -> B) :
  assign (map h pts) (map c pts) (map g (select (map c pts) pts)) = map (fun x => if c x then g x else h x) pts.
Proof. induction pts as [|x pts IH]; [reflexivity|]. cbn [map select]. destruct (c x); cbn [map assign]; now rewrite IH. Qed.
Lemma none_selected {A B} (pts : list A) (c : A -> bool) (h g : A -> B) : existsb (fun b => b) (map c pts) = false -> map h pts = map (fun x => if c x then g x else h x) pts.
Proof. induction pts as [|x pts IH]; [reflexivity|]. cbn. intros H. apply orb_false_iff in H. destruct H as [-> H]. now rewrite <- IH. Qed.
Lemma select_map {A B} (f : A -> B) c l : select c (map f l) = map f (select c l).
Proof. revert l. induction c as [|b c IH]; intros [|a l]; try reflexivity; try (now destruct b). cbn. destruct b; cbn; now rewrite IH. Qed.
Definition piece_ok (f : piece) : Prop := match f with PcPoly p => py_valid p | _ => True end.
Lemma np_piece_float f xs : piece_ok f -> np_piece f (AF xs) = Ok (AF (map (piece_eval f) xs)).
Proof. destruct f as [p|c|g]; cbn [piece_ok np_piece floats piece_eval]; intros H; [now apply np_poly_float|reflexivity|reflexivity]. Qed.
Lemma np_piece_int f zs v : np_piece f (AI zs) = Ok v -> ints v = map (fun z => trunc (piece_eval f (IZR z))) zs.
Proof.
  destruct f as [p|c|g]; cbn [np_piece floats piece_eval].
  - intros H. apply np_poly_int in H. destruct H as (c & E & ->). cbn [ints]. apply map_ext. intros z. now rewrite (py_eval_horner p c []) by now rewrite E.
  - intros [= <-]. cbn [ints]. now rewrite !map_map.
  - intros [= <-]. cbn [ints]. now rewrite !map_map.
Qed.
Definition pstep (x : R) (acc : R) (cf : (R -> bool) * piece) : R := if fst cf x then piece_eval (snd cf) x else acc.
Lemma np_select_float xs fs : List.Forall (fun cf => piece_ok (snd cf)) fs -> forall h : R -> R,
  fold_left (fun acc '(cond, f) => bind acc (fun y =>
      if existsb (fun b => b) cond then bind (np_piece f (dselect cond (AF xs))) (fun v => Ok (dassign y cond v)) else Ok y))
    (map (fun cf => (map (fst cf) xs, snd cf)) fs) (Ok (AF (map h xs))) = Ok (AF (map (fun x => fold_left (pstep x) fs (h x)) xs)).
Proof.
  induction 1 as [|[c f] fs Hf Hfs IH]; intros h; [reflexivity|]. cbn [map fold_left fst snd bind dselect] in *.
  destruct (existsb (fun b => b) (map c xs)) eqn:E.
  - rewrite np_piece_float by exact Hf. cbn [bind dassign floats]. rewrite assign_map. apply (IH (fun x => if c x then piece_eval f x else h x)).
  - rewrite (none_selected xs c h (piece_eval f) E). apply (IH (fun x => if c x then piece_eval f x else h x)).
Qed.
Lemma fold_err {A B} (g : result A -> B -> result A) e l : (forall b, g (Err e) b = Err e) -> fold_left g l (Err e) = Err e.
Proof. intros H. induction l as [|b l IH]; [reflexivity|]. cbn. now rewrite H. Qed.
Lemma np_select_int zs fs : forall (h : R -> R) a,
  fold_left (fun acc '(cond, f) => bind acc (fun y =>
      if existsb (fun b => b) cond then bind (np_piece f (dselect cond (AI zs))) (fun v => Ok (dassign y cond v)) else Ok y))
    (map (fun cf => (map (fst cf) (map IZR zs), snd cf)) fs) (Ok (AI (map (fun z => trunc (h (IZR z))) zs))) = Ok a ->
  a = AI (map (fun z => trunc (fold_left (pstep (IZR z)) fs (h (IZR z)))) zs).
Proof.
  induction fs as [|[c f] fs IH]; intros h a; [intros [= <-]; reflexivity|]. cbn [map fold_left fst snd bind dselect].
  rewrite map_map. destruct (existsb (fun b => b) (map (fun z => c (IZR z)) zs)) eqn:E.
  - destruct (np_piece f (AI (select (map (fun z => c (IZR z)) zs) zs))) as [v|e] eqn:Ev; cbn [bind].
    + apply np_piece_int in Ev. cbn [dassign]. rewrite Ev. rewrite assign_map. intros H. apply (IH (fun x => if c x then piece_eval f x else h x)).
      rewrite <- H. do 3 f_equal. apply map_ext. intros z. now destruct (c (IZR z)).
    + rewrite fold_err; [discriminate|]. now intros [cond g].
  - intros H. apply (IH (fun x => if c x then piece_eval f x else h x)). rewrite <- H. do 3 f_equal.
    rewrite (none_selected zs (fun z => c (IZR z)) (fun z => trunc (h (IZR z))) (fun z => trunc (piece_eval f (IZR z))) E).
    apply map_ext. intros z. now destruct (c (IZR z)).
Qed.
(** Conditions and pieces of a piecewise function. *)
Definition cond_fns (f : pw) : list (R -> bool) :=
  match pw_kind f with
  | KConstant => map (fun i t => half_open (pw_xs f) t i) (range 0 (length (pw_fns f)))
  | _ => (fun t => Rleb (knot (pw_xs f) 0) t && Rleb t (knot (pw_xs f) 1)) :: map (fun i t => half_open (pw_xs f) t i) (range 1 (length (pw_fns f)))
  end.
Lemma combine_map_l {A B C} (g : A -> C) (l : list A) (m : list B) : combine (map g l) m = map (fun ab => (g (fst ab), snd ab)) (combine l m).
Proof. revert m. induction l as [|a l IH]; intros [|b m]; cbn; try reflexivity. now rewrite IH. Qed.
Lemma np_pw_fold f x : pw_fns f <> [] -> np_pw f x = np_select x (map (fun cf => (map (fst cf) (floats x), snd cf)) (combine (cond_fns f) (pw_fns f))).
Proof.
  intros H. unfold np_pw. destruct (Nat.eqb_spec (length (pw_fns f)) 0) as [E|_]; [apply length_zero_iff_nil in E; contradiction|].
  rewrite <- (combine_map_l (fun c => map c (floats x))). f_equal. f_equal. unfold cond_fns. destruct (pw_kind f); cbn [map]; rewrite ?map_map; reflexivity.
Qed.
Lemma pw_eval_fold f x : pw_fns f <> [] -> pw_eval f x = Ok (fold_left (pstep x) (combine (cond_fns f) (pw_fns f)) 0).
Proof.
  intros H. unfold pw_eval. destruct (Nat.eqb_spec (length (pw_fns f)) 0) as [E|_]; [apply length_zero_iff_nil in E; contradiction|].
  f_equal. unfold np_piecewise.
  assert (G : forall cs fs a, fold_left (fun acc (cv : bool * R) => if fst cv then snd cv else acc) (combine (map (fun c : R -> bool => c x) cs) (map (fun g => piece_eval g x) fs)) a =
    fold_left (pstep x) (combine cs fs) a).
  { induction cs as [|c cs IH]; intros [|g fs] a; cbn; try reflexivity. apply IH. }
  rewrite <- G. f_equal. f_equal. unfold cond_fns. destruct (pw_kind f); cbn [map]; rewrite ?map_map; reflexivity.
Qed.
(** At floats every entry is the value of the function there. *)
Theorem C50_piecewise_floats : forall f xs, pw_fns f <> [] -> List.Forall piece_ok (pw_fns f) ->
  exists ys, np_pw f (AF xs) = Ok (AF ys) /\ Forall2 (fun x y => pw_eval f x = Ok y) xs ys.
Proof.
  intros f xs H V. rewrite np_pw_fold by exact H. unfold np_select. cbn [full_like floats]. rewrite np_select_float.
  - eexists. split; [reflexivity|]. induction xs as [|x xs IH]; cbn [map]; constructor; [now apply pw_eval_fold|exact IH].
  - apply Forall_forall. intros [c g] Hin. apply in_combine_r in Hin. exact (proj1 (Forall_forall _ _) V g Hin).
Qed.
(** At integers a result, if there is one, is the float result rounded towards zero. *)
Theorem C50_piecewise_integers : forall f zs a, np_pw f (AI zs) = Ok a ->
  exists ys, a = AI ys /\ Forall2 (fun z y => exists v, pw_eval f (IZR z) = Ok v /\ toward_zero v y) zs ys.
Proof.
  intros f zs a. destruct (pw_fns f) as [|g gs] eqn:E; [unfold np_pw; rewrite E; discriminate|].
  assert (H : pw_fns f <> []) by (rewrite E; discriminate). rewrite np_pw_fold by exact H. unfold np_select. cbn [full_like floats].
  intros X. apply (np_select_int zs (combine (cond_fns f) (pw_fns f)) (fun _ => 0)) in X. subst a. eexists. split; [reflexivity|]. clear E.
  induction zs as [|z zs IH]; cbn [map]; constructor; [|exact IH]. eexists. split; [now apply pw_eval_fold|]. apply trunc_toward_zero.
Qed.
Theorem C50_piecewise_truncated_refuted : exists xs ys f z y, piecewise_constant xs ys = Ok f /\ np_pw f (AI [z]) = Ok (AI [y]) /\ pw_eval f (IZR z) <> Ok (IZR y).
Proof.
  exists [0; 2], [0.5], (mkpw KConstant [0; 2] [PcConst 0.5]), 1%Z, 0%Z. split; [reflexivity|].
  assert (T : trunc 0.5 = 0%Z). { apply (toward_zero_unique 0.5); [apply trunc_toward_zero|]. split; [rewrite Rabs_R0, Rabs_pos_eq; lra|lra]. }
  assert (C : half_open [0; 2] 1 0 = true). { unfold half_open, knot. cbn. destruct (Rltb_spec 0 1); [|lra]. destruct (Rleb_spec 1 2); [reflexivity|lra]. }
  assert (O : IZR 1 = 1) by reflexivity. split.
  - unfold np_pw. cbn [pw_fns pw_xs pw_kind length Nat.eqb range seq Nat.sub map floats combine np_select fold_left full_like bind]. rewrite C.
    cbn [existsb orb np_piece dselect select floats map bind dassign ints assign]. now rewrite T.
  - unfold pw_eval. cbn [pw_fns pw_xs pw_kind length Nat.eqb range seq Nat.sub map]. rewrite C. cbn. intros [= X]. lra.
Qed.
Theorem C50_piecewise_linear_fails_refuted : exists f, from_points [0; 2] [0; 1] = Ok f /\ np_pw f (AI [1%Z]) = Err TypeError /\ exists v, pw_eval f 1 = Ok v /\ v = 1 / 2.
Proof.
  exists (mkpw KLinear [0; 2] [linear_piece 0 2 0 1]). split; [reflexivity|].
  assert (C1 : Rleb 0 1 = true) by (destruct (Rleb_spec 0 1); [reflexivity|lra]). assert (C2 : Rleb 1 2 = true) by (destruct (Rleb_spec 1 2); [reflexivity|lra]). split.
  - unfold np_pw. cbn [pw_fns pw_xs pw_kind length Nat.eqb range seq Nat.sub map floats knot nth]. rewrite C1, C2. cbn [andb combine np_select fold_left full_like bind existsb orb].
    unfold linear_piece. cbn [np_piece dselect select]. rewrite C50_polynomial_integers_fail_refuted by (cbn; lia). reflexivity.
  - eexists. split; [unfold pw_eval; cbn [pw_fns pw_xs pw_kind length Nat.eqb range seq Nat.sub map knot nth]; rewrite C1, C2; cbn [andb np_piecewise combine fold_left fst snd piece_eval linear_piece]; reflexivity|].
    rewrite (py_eval_horner _ ((1 - 0) / (2 - 0)) [0 - (1 - 0) / (2 - 0) * 0]) by reflexivity. cbn. unfold hstep. lra.
Qed.
Example C50_nonvacuous : py_valid (make_float [1; 2; 3]) /\ List.Forall piece_ok [PcPoly (make_float [1]); PcConst 2].
Proof. split; [discriminate|]. repeat constructor. discriminate. Qed.

Print Assumptions C50_jax_integers.
Print Assumptions C50_piecewise_integers.
