(** C63: differential operators given by arbitrary coefficients. *)
From Coq Require Import List Reals Lra Lia Bool Arith ZArith FunctionalExtensionality.
From Coquelicot Require Import Coquelicot.
From Verif Require Import Base NdArray PolyClassModel FunExprModel FunExprProofs DiffopModel DiffopSpec DiffopProofs
  LfoModel LfoSpec LfoSmooth LfoProofs LfoSound LfoTotal ShapedModel KernelModel KernelSpec KernelSmooth KernelSound KernelProps
  GenModel GenSpec GenProofs GenProofs2 GenProofs3.
Import ListNotations.
Open Scope R_scope.

(** ** Construction *)
(** The coefficients have to be given for the declared shapes. *)
Theorem C63_constructor : forall c dom cod,
  ((c_dom c, c_cod c) = (dom, cod) -> mk_ldo c dom cod = Ok c) /\ ((c_dom c, c_cod c) <> (dom, cod) -> mk_ldo c dom cod = Err ValueError).
Proof.
  intros c dom cod. unfold mk_ldo. split; intros H.
  - injection H as <- <-. now rewrite !shape_eqb_refl.
  - destruct (shape_eqb_spec (c_dom c) dom) as [E|E]; [|reflexivity]. destruct (shape_eqb_spec (c_cod c) cod) as [E'|E']; [|reflexivity]. congruence.
Qed.
(** Selecting an output: the index has to name one entry; negative integers count from the
    end.  An index that is too long or out of range is an [IndexError]; an index that
    leaves axes over is a [TypeError] unless an axis left over first is empty. *)
Theorem C63_select : forall cod i, (forall j m, nth_error i j = Some m -> exists n, nth_error cod j = Some n /\ in_range m n) ->
  let rest := skipn (length i) cod in
  select_cod cod (OTup i) = match rest with [] | O :: _ => Ok [] | S _ :: _ => Err TypeError end.
Proof.
  intros cod i H. cbn zeta. unfold select_cod. assert (E : picked cod i = Ok (skipn (length i) cod)).
  { revert cod H. induction i as [|z i IH]; intros cod H; [now destruct cod|]. destruct (H 0%nat z eq_refl) as (n & Hn & [A B]).
    destruct cod as [|m cod]; [discriminate|]. injection Hn as ->. cbn [picked length skipn]. rewrite (proj2 (Z.leb_le _ _) A), (proj2 (Z.ltb_lt _ _) B). cbn [andb].
    apply IH. intros j k Hj. exact (H (S j) k Hj). }
  rewrite E. cbn [bind]. destruct (skipn (length i) cod) as [|[|n] l]; reflexivity.
Qed.
Theorem C63_select_error : forall cod i, (exists j m, nth_error i j = Some m /\ forall n, nth_error cod j = Some n -> ~ in_range m n) ->
  select_cod cod (OTup i) = Err IndexError.
Proof.
  intros cod i (j & m & Hm & H). unfold select_cod. assert (E : picked cod i = Err IndexError).
  { revert i j Hm H. induction cod as [|n cod IH]; intros [|z i] j Hm H; try (destruct j; discriminate); [reflexivity|]. cbn [picked].
    destruct j as [|j].
    - injection Hm as ->. specialize (H n eq_refl). destruct (Z.leb_spec (- Z.of_nat n) m); [|reflexivity]. destruct (Z.ltb_spec m (Z.of_nat n)); [|reflexivity]. exfalso. apply H. now split.
    - destruct (_ && _); [|reflexivity]. now apply (IH i j). }
  now rewrite E.
Qed.
Theorem C63_select_int : forall cod z, select_cod cod (OInt z) = select_cod cod (OTup [z]).
Proof. reflexivity. Qed.
(** Coefficients for an output counted from the end beyond the first one are accepted, and
    applying the operator is an error. *)
Lemma mk_coeffs_neg : exists c, mk_coeffs (F := RF) [([(-3)%Z], [(MI [] [1%nat], 1)])] [] [2%nat] = Ok c /\ gen_terms c = Err IndexError.
Proof. eexists. split; reflexivity. Qed.
Theorem C63_negative_output_refuted : forall n dom y a, mi_shape a = dom -> exists c, mk_coeffs (F := RF) [([(- Z.of_nat n - 1)%Z], [(a, y)])] dom [n] = Ok c /\
  gen_terms c = Err IndexError.
Proof.
  intros n dom y a <-. eexists. split.
  - unfold mk_coeffs. cbn [forallb length Nat.eqb]. unfold all_lt. cbn [combine forallb]. rewrite shape_eqb_refl.
    assert (L : ((- Z.of_nat n - 1) <? Z.of_nat n)%Z = true) by (apply Z.ltb_lt; lia). rewrite L. reflexivity.
  - unfold gen_terms. cbn [c_dict c_cod mapM]. unfold gen_term. rewrite C63_select_error; [reflexivity|].
    exists 0%nat. exists (- Z.of_nat n - 1)%Z. split; [reflexivity|]. intros k [= <-]. unfold in_range. lia.
Qed.

(** ** Real-valued functions *)
(** What the operator returns is the linear combination of the derivatives. *)
Theorem C63_function : forall n c f g b, coeffs_ok c -> c_cod c = [] -> multi_indices proper c ->
  fwf f -> fsm f -> in_shape f = c_dom c -> out_shape f = [] -> gen_call n c f = Ok (g, b) ->
  in_shape g = c_dom c /\ out_shape g = [] /\ forall x, feval g x [] = csem c (feval f) x.
Proof.
  intros n c f g b O Ec P Wf Sf Hi Ho H. destruct (gen_sound n c O Ec P f g b Wf Sf Hi Ho H) as (_ & _ & E & V). injection E as -> ->.
  split; [reflexivity|]. split; [reflexivity|]. intros x. apply V. constructor.
Qed.
(** It returns something for every function that is not a multiple and whose summands are
    none; the result is flagged if and only if a summand is neither constant nor zero. *)
Theorem C63_function_total : forall n c f, coeffs_ok c -> c_cod c = [] -> multi_indices proper c ->
  fwf f -> fsm f -> unscaled f -> in_shape f = c_dom c -> out_shape f = [] ->
  exists g, gen_call (6 + n) c f = Ok (g, existsb opaque_fn (summands f)).
Proof. intros n c f O Ec P. now apply gen_total. Qed.
(** Flagged results can be evaluated at single points only. *)
Theorem C63_single_points : forall g b batch p, (forall d, In d batch -> d = 1%nat) -> gen_eval (g, b) false batch p = Ok (fun i => feval g (p i) []).
Proof.
  intros g b batch p H. unfold gen_eval. cbn [snd fst orb]. assert (E : existsb (fun d => negb (d =? 1)%nat) batch = false).
  { apply not_true_iff_false. intros X. apply existsb_exists in X as (d & Hd & X). rewrite (H d Hd) in X. discriminate. }
  now rewrite E, andb_false_r.
Qed.
Theorem C63_unflagged_points : forall g t batch p, gen_eval (g, false) t batch p = Ok (fun i => feval g (p i) []).
Proof. reflexivity. Qed.
Theorem C63_batch_refuted : forall n c f g b, coeffs_ok c -> c_cod c = [] -> multi_indices proper c ->
  fwf f -> fsm f -> unscaled f -> in_shape f = c_dom c -> out_shape f = [] -> existsb opaque_fn (summands f) = true -> gen_call (6 + n) c f = Ok (g, b) ->
  forall batch p, (exists d, In d batch /\ d <> 1%nat) -> gen_eval (g, b) false batch p = Err TypeError /\ forall batch', gen_eval (g, b) true batch' p = Err TypeError.
Proof.
  intros n c f g b O Ec P Wf Sf U Hi Ho X H batch p (d & Hd & N). destruct (gen_total c O Ec n f P Wf Sf U Hi Ho) as (g' & H'). rewrite H in H'. injection H' as -> ->.
  rewrite X. unfold gen_eval. cbn [snd andb orb]. split; [|reflexivity].
  assert (E : existsb (fun d => negb (d =? 1)%nat) batch = true) by (apply existsb_exists; exists d; split; [exact Hd|]; apply Nat.eqb_neq in N; now rewrite N). now rewrite E.
Qed.
(** Coefficients with a derivative and a multiple of the function itself *)
Theorem C63_order_zero_refuted : forall n c f, coeffs_ok c -> c_cod c = [] -> opaque_fn f = true -> fwf f -> in_shape f = c_dom c -> out_shape f = [] ->
  (exists i inn a y, In (i, inn) (c_dict c) /\ In (a, y) inn /\ proper a) ->
  (exists i inn a y, In (i, inn) (c_dict c) /\ In (a, y) inn /\ mi_order a = 0%nat) ->
  gen_call (5 + n) c f = Err TypeError.
Proof. intros n c f O Ec. now apply gen_mixed. Qed.
(** Constant functions are mapped to zero, whatever the coefficients. *)
Theorem C63_constant : forall n c f, coeffs_ok c -> c_cod c = [] -> is_constant_fn f = true -> in_shape f = c_dom c -> out_shape f = [] ->
  gen_call (5 + n) c f = Ok (FZero (c_dom c) [], false).
Proof. intros n c f O Ec. now apply gen_const. Qed.
Theorem C63_constant_order_zero_refuted : exists c f, coeffs_ok c /\ gen_call 5 c f = Ok (FZero [] [], false) /\ forall x, csem c (feval f) x = 1.
Proof.
  exists (Coeffs (F := RF) [([], [(MI [] [0%nat], 1)])] [] []), (FConst [] [] (fun _ => 1)).
  assert (O : coeffs_ok (Coeffs (F := RF) [([], [(MI [] [0%nat], 1)])] [] [])).
  { split; [discriminate|]. intros i inn [[= <- <-]|[]]. split; [discriminate|]. split; [constructor|]. intros a y [[= <- <-]|[]]. split; reflexivity. }
  split; [exact O|]. split; [now apply (C63_constant 0)|]. intros x. unfold csem. cbn. unfold pderiv, all_indices. cbn. unfold total. cbn. ring.
Qed.
(** Multiples of functions lead to an endless recursion. *)
Theorem C63_scaled_refuted : forall n c s f, gen_call n c (FScaled s f) = Err RecursionError.
Proof. exact gen_scaled_diverges. Qed.

(** ** Functions with several outputs *)
Theorem C63_vector_zero : forall n c i o, gen_call (S n) c (FZero i o) = Ok (FZero (c_dom c) [], false).
Proof. reflexivity. Qed.
Theorem C63_vector_function_refuted : forall n c f, coeffs_ok c -> c_cod c <> [] -> opaque_fn f = true -> in_shape f = c_dom c -> out_shape f = c_cod c ->
  gen_call (S n) c f = Err NotImplementedError.
Proof.
  intros n c f O N Hf Hi Ho. cbn [gen_call].
  assert (B : forall X : result (fn * bool), or_else match f with
        | FSum gs => bind (mapM (gen_call n c) gs) (fun rs => bind (jax_sum_of (map fst rs)) (fun g => Ok (g, existsb snd rs)))
        | FScaled s _ => bind (gen_call n c f) (fun '(g, b) => Ok (FScaled s g, b))
        | FZero _ _ => Ok (FZero (c_dom c) [], false)
        | _ => Err NotImplementedError
        end X = X) by (intros; destruct f; easy).
  rewrite B, Hi, Ho, !shape_eqb_refl. cbn [negb]. destruct (c_cod c) as [|m cod] eqn:Ec; [congruence|]. rewrite <- Ec in *. rewrite (gen_terms_ok c O). cbn [bind or_else].
  unfold gen_jax. rewrite (gen_terms_ok c O). cbn [bind]. destruct (first_terms c O) as (i & a & y & inn & d & E). rewrite E. cbn [map mapM t_idx].
  destruct (proj2 O i ((a, y) :: inn)) as (_ & R & _); [rewrite E; now left|]. rewrite Ec in R. inversion R; subst. reflexivity.
Qed.
Theorem C63_argument_shapes : forall n c f, coeffs_ok c -> c_cod c <> [] -> opaque_fn f = true -> (in_shape f, out_shape f) <> (c_dom c, c_cod c) ->
  gen_call (S n) c f = Err ValueError.
Proof.
  intros n c f O N Hf H. cbn [gen_call].
  assert (B : forall X : result (fn * bool), or_else match f with
        | FSum gs => bind (mapM (gen_call n c) gs) (fun rs => bind (jax_sum_of (map fst rs)) (fun g => Ok (g, existsb snd rs)))
        | FScaled s _ => bind (gen_call n c f) (fun '(g, b) => Ok (FScaled s g, b))
        | FZero _ _ => Ok (FZero (c_dom c) [], false)
        | _ => Err NotImplementedError
        end X = X) by (intros; destruct f; easy).
  rewrite B. destruct (c_cod c) as [|m cod] eqn:Ec; [congruence|]. rewrite <- Ec in *. rewrite (gen_terms_ok c O). cbn [bind or_else].
  destruct (shape_eqb_spec (in_shape f) (c_dom c)) as [E|E]; [|reflexivity]. destruct (shape_eqb_spec (out_shape f) (c_cod c)) as [E'|E']; [|reflexivity]. congruence.
Qed.
(** Stacked functions: the operator selects outputs by tuples, which are refused. *)
Theorem C63_stacked_function_refuted : forall c s, coeffs_ok c -> c_cod c <> [] -> gen_stacked c s = Err AssertionError.
Proof.
  intros c s O N. unfold gen_stacked. destruct (c_cod c) as [|m cod] eqn:E; [congruence|]. rewrite (gen_terms_ok c O). cbn [bind].
  destruct (first_terms c O) as (i & a & y & inn & d & ->). reflexivity.
Qed.
(** So are independent outputs. *)
Theorem C63_independent_refuted : forall c m a, coeffs_ok c -> c_cod c = [m] -> (a <= 1)%nat -> gen_independent c (c_dom c) m a = Err AssertionError.
Proof.
  intros c m a O E L. unfold gen_independent. replace (1 <? a)%nat with false by (symmetry; apply Nat.ltb_ge; exact L).
  rewrite E, !shape_eqb_refl. cbn [negb]. now rewrite (gen_terms_ok c O).
Qed.
Theorem C63_independent_shapes : forall c insh m a, (1 < a)%nat \/ insh <> c_dom c \/ c_cod c <> [m] -> gen_independent c insh m a = Err ValueError.
Proof.
  intros c insh m a H. unfold gen_independent. destruct (Nat.ltb_spec 1 a) as [|L]; [reflexivity|]. destruct (shape_eqb_spec insh (c_dom c)) as [E|E]; [|reflexivity].
  destruct (shape_eqb_spec [m] (c_cod c)) as [E'|E']; [|reflexivity]. destruct H as [H|[H|H]]; [lia|congruence|congruence].
Qed.

(** ** Covariance functions *)
(** The result is the operator applied in the argument. *)
Theorem C63_kernel : forall m n c x k a k', coeffs_ok c -> kok x -> kbuild m x = Ok k -> gen_ccall n c k a = Ok (Some k') ->
  forall x0 x1, ceval k' x0 x1 = in_arg a (fun f => csem c (fun z _ => f z)) (kmean x) x0 x1.
Proof.
  intros m n c x k a k' O Hx Hk H x0 x1. destruct (kbuild_sound m x k Hx Hk) as [->|(sh & F & E)]; [destruct n; discriminate|].
  destruct (gen_ccall_sound n c O sh k a k' F H) as [_ V]. rewrite V, E. reflexivity.
Qed.
(** For the squared exponential covariance function it exists for derivatives up to order
    two of functions on the line, and for multiples. *)
Theorem C63_kernel_exists : forall n c e a, coeffs_ok c -> c_dom c = eq_shape e -> c_cod c = [] -> (a <= 1)%nat ->
  multi_indices (known_order (eq_shape e)) c -> exists k', gen_ccall (6 + n) c (CExp e) a = Ok (Some k').
Proof. intros n c e a O Ed Ec Ha. apply (gen_exp c e a O Ed); [|exact Ec]. unfold isarg. lia. Qed.
Theorem C63_kernel_order_refuted : forall n c e a, coeffs_ok c -> c_dom c = eq_shape e -> c_cod c = [] -> (a <= 1)%nat ->
  multi_indices (fun al => known_order (eq_shape e) al \/ unknown_order (eq_shape e) al) c ->
  (exists i inn al y, In (i, inn) (c_dict c) /\ In (al, y) inn /\ unknown_order (eq_shape e) al) -> gen_ccall (6 + n) c (CExp e) a = Err TypeError.
Proof. intros n c e a O Ed Ec Ha. apply (gen_exp c e a O Ed); [|exact Ec]. unfold isarg. lia. Qed.
(** In particular for inputs with several coordinates, whatever the derivatives. *)
Theorem C63_kernel_multivariate_refuted : forall n c e a, coeffs_ok c -> c_dom c = eq_shape e -> c_cod c = [] -> (a <= 1)%nat -> size (eq_shape e) <> 1%nat ->
  (exists i inn al y, In (i, inn) (c_dict c) /\ In (al, y) inn /\ proper al) -> gen_ccall (6 + n) c (CExp e) a = Err TypeError.
Proof.
  intros n c e a O Ed Ec Ha Hs (i & inn & al & y & HI & Hy & Pa). apply C63_kernel_order_refuted; auto.
  - intros j jnn bl z HJ Hz. unfold known_order, unknown_order. destruct (Nat.eq_dec (mi_order bl) 0); auto.
  - exists i, inn, al, y. split; [exact HI|]. split; [exact Hy|]. split; [exact Pa|now left].
Qed.
(** Inputs of shape (1,) or (1, 1) are no better. *)
Theorem C63_kernel_one_coordinate_refuted : forall n c e a i al y inn d, coeffs_ok c -> c_dom c = eq_shape e -> c_cod c = [] -> (a <= 1)%nat ->
  size (eq_shape e) = 1%nat -> eq_shape e <> [] -> c_dict c = (i, (al, y) :: inn) :: d -> mi_order al = 1%nat \/ mi_order al = 2%nat -> gen_ccall (6 + n) c (CExp e) a = Err ValueError.
Proof.
  intros n c e a i al y inn d O Ed Ec Ha Hs Ns E Ho. assert (V : validate (eq_shape e) [] (CExp e) a = Ok tt).
  { unfold validate. destruct a as [|[|a]]; [| |lia]; cbn; now rewrite shape_eqb_refl. }
  assert (V' : validate [] [] (CExp e) a = Err ValueError).
  { unfold validate. destruct a as [|[|a]]; [| |lia]; cbn; (destruct (shape_eqb_spec (eq_shape e) []); [congruence|reflexivity]). }
  destruct (gen_lfo_ok c O) as (EL & _).
  assert (U : gen_ccall (6 + n) c (CExp e) a = bind (validate (c_dom c) (c_cod c) (CExp e) a) (fun _ => or_else (bind (gen_lfo DPartialNoJax c) (fun L => bind (ccall (5 + n) L (CExp e) a) (fun r => Ok (Some r)))) (gen_cov_jax c))) by reflexivity.
  rewrite U, Ed, Ec, V, EL. cbn [bind]. change (5 + n)%nat with (S (S (S (S (S n))))).
  assert (Es : mi_shape al = eq_shape e). { destruct (proj2 O i ((al, y) :: inn)) as (_ & _ & A); [rewrite E; now left|]. rewrite <- Ed. exact (proj2 (A al y (or_introl eq_refl))). }
  assert (X : ccall (S (S n)) (ODiff (DPartialNoJax al)) (CExp e) a = Err ValueError).
  { change (partial_derivative_fallback (ccall (S n)) al (CExp e) a = Err ValueError). unfold partial_derivative_fallback. rewrite Es, V, Hs. cbn [bind Nat.eqb andb].
    destruct Ho as [-> | ->]; cbn [Nat.eqb].
    - change (ccall (S n) (ODiff (DDir [] (fun _ => 1))) (CExp e) a) with (bind (validate [] [] (CExp e) a) (fun _ => Ok (CExpDir e (fun _ => 1) (is0 a)))). now rewrite V'.
    - change (ccall (S n) (ODiff (DLap false [] (fun _ => 1))) (CExp e) a) with (bind (validate [] [] (CExp e) a) (fun _ => Ok (CExpLap e (fun _ => 1) (is0 a)))). now rewrite V'. }
  assert (Y : ccall (S (S (S (S (S n))))) (gsum DPartialNoJax c) (CExp e) a = Err ValueError).
  { unfold gsum. rewrite E. cbn [map]. rewrite csum_unf, csum_unf, cscaled_unf, X. cbn [bind].
    rewrite (fold_err0 (fun M => ccall (S (S (S n))) M (CExp e) a) cov_add). now rewrite (fold_err0 (fun M => ccall (S (S (S (S n)))) M (CExp e) a) cov_add). }
  rewrite Y. reflexivity.
Qed.
(** Covariance functions known by their jax implementation only: what comes back cannot be
    evaluated. *)
Theorem C63_kernel_jax_refuted : forall n c sh f a, coeffs_ok c -> c_dom c = sh -> c_cod c = [] -> (a <= 1)%nat -> multi_indices proper c ->
  exists k, gen_ccall (5 + n) c (CJax sh f) a = Ok k /\ forall x0 x1, gen_ceval k x0 x1 = Err TypeError.
Proof.
  intros n c sh f a O Ed Ec Ha P. exists None. split; [|reflexivity]. apply gen_jax_cov; auto. unfold isarg. lia.
Qed.
Theorem C63_kernel_jax_order_zero_refuted : forall n c sh f a i al y inn d, coeffs_ok c -> c_dom c = sh -> c_cod c = [] -> (a <= 1)%nat ->
  c_dict c = (i, (al, y) :: inn) :: d -> proper al -> (exists i inn a y, In (i, inn) (c_dict c) /\ In (a, y) inn /\ mi_order a = 0%nat) ->
  gen_ccall (5 + n) c (CJax sh f) a = Err TypeError.
Proof. intros n c sh f a i al y inn d O Ed Ec Ha. apply gen_jax_mixed; auto. unfold isarg. lia. Qed.
Theorem C63_kernel_value : forall k x0 x1, gen_ceval (Some k) x0 x1 = Ok (ceval k x0 x1).
Proof. reflexivity. Qed.
(** The argument number and the shapes are checked. *)
Theorem C63_kernel_shapes : forall n c k a, is_cov k = true -> (1 < a)%nat \/ c_shape k <> c_dom c \/ c_cod c <> [] -> gen_ccall (S n) c k a = Err ValueError.
Proof.
  intros n c k a Hk H. cbn [gen_ccall]. rewrite Hk. cbn [negb]. assert (V : validate (c_dom c) (c_cod c) k a = Err ValueError); [|now rewrite V].
  unfold validate. destruct a as [|[|a]]; cbn [Nat.eqb orb negb]; try reflexivity; (destruct (shape_eqb_spec (c_shape k) (c_dom c)) as [E|E]; [|reflexivity]);
    (destruct (shape_eqb_spec [] (c_cod c)) as [E'|E']; [|reflexivity]); destruct H as [H|[H|H]]; (lia || congruence).
Qed.
(** Sums and multiples of covariance functions are treated summand by summand. *)
Theorem C63_kernel_scaled : forall n c s k a r, validate (c_dom c) (c_cod c) k a = Ok tt -> gen_ccall n c k a = Ok r -> (forall q, r = Some q -> is_cov q = true) ->
  exists q, gen_ccall (S n) c (CScaled s k) a = Ok q /\
    (r = None -> forall x0 x1, gen_ceval q x0 x1 = Err TypeError) /\
    (forall k', r = Some k' -> forall x0 x1, gen_ceval q x0 x1 = Ok (s * ceval k' x0 x1)).
Proof.
  intros n c s k a r V H G. cbn [gen_ccall is_cov negb]. change (validate (c_dom c) (c_cod c) (CScaled s k) a) with (validate (c_dom c) (c_cod c) k a).
  rewrite V. cbn [bind]. rewrite H. cbn [bind]. destruct r as [k'|]; cbn [gen_scale].
  - specialize (G k' eq_refl). assert (X : exists q, cov_scale s k' = Ok q /\ forall x0 x1, ceval q x0 x1 = s * ceval k' x0 x1).
    { destruct k'; try discriminate G; cbn [cov_scale]; (eexists; split; [reflexivity|]); intros x0 x1; try reflexivity. cbn [ceval]. ring. }
    destruct X as (q & Hq & E). rewrite Hq. cbn [bind or_else]. exists (Some q). split; [reflexivity|]. split; [discriminate|].
    intros k'' [= <-] x0 x1. cbn [gen_ceval]. now rewrite E.
  - cbn [or_else]. exists None. split; [reflexivity|]. split; [reflexivity|discriminate].
Qed.
(** One summand that cannot be evaluated spoils the sum. *)
Theorem C63_kernel_sum : forall n c k ks a rs, validate (c_dom c) (c_cod c) k a = Ok tt -> mapM (fun k' => gen_ccall n c k' a) (k :: ks) = Ok rs ->
  (forall r, In r rs -> forall q, r = Some q -> is_cov q = true /\ c_shape q = c_dom c) ->
  exists q, gen_ccall (S n) c (CSum (k :: ks)) a = Ok q /\
    ((exists r, In r rs /\ r = None) -> forall x0 x1, gen_ceval q x0 x1 = Err TypeError) /\
    (forall l, rs = map Some l -> forall x0 x1, gen_ceval q x0 x1 = Ok (total (map (fun r => ceval r x0 x1) l))).
Proof.
  intros n c k ks a rs V H G. cbn [gen_ccall is_cov negb]. change (validate (c_dom c) (c_cod c) (CSum (k :: ks)) a) with (validate (c_dom c) (c_cod c) k a).
  rewrite V. cbn [bind]. rewrite H. cbn [bind]. assert (NE : rs <> []) by (apply mapM_ok in H; intros ->; inversion H).
  unfold gen_covsum. set (somes := flat_map (fun k => match k with Some k => [k] | None => [] end) rs).
  assert (S : forall q, In q somes -> is_cov q = true /\ c_shape q = c_dom c).
  { intros q Hq. apply in_flat_map in Hq as ([r|] & Hr & Hq); [|destruct Hq]. destruct Hq as [<-|[]]. exact (G (Some r) Hr r eq_refl). }
  assert (M : somes <> [] -> mk_covsum somes = Ok (CSum somes)).
  { clearbody somes. intros N. unfold mk_covsum. assert (B : forallb is_cov somes = true) by (apply forallb_forall; intros q Hq; apply S; exact Hq). rewrite B. cbn [negb].
    destruct somes as [|q l]; [congruence|]. assert (B' : forallb (fun c' => shape_eqb (c_shape c') (c_shape q)) (q :: l) = true).
    { apply forallb_forall. intros r Hr. destruct (S r Hr) as [_ ->]. destruct (S q (or_introl eq_refl)) as [_ ->]. apply shape_eqb_refl. }
    now rewrite B'. }
  destruct (forallb (fun k => match k with Some _ => true | None => false end) rs) eqn:B.
  - assert (N : somes <> []).
    { destruct rs as [|[r|] rs]; [congruence|discriminate|discriminate]. }
    rewrite (M N). cbn [bind or_else]. eexists. split; [reflexivity|]. split.
    + intros (r & Hr & ->). exfalso. rewrite forallb_forall in B. specialize (B _ Hr). discriminate.
    + intros l -> x0 x1. cbn [gen_ceval]. f_equal. assert (E : somes = l) by (unfold somes; clear; induction l as [|q l IH]; [reflexivity|cbn; now rewrite IH]). now rewrite E.
  - assert (X : exists q, match somes with [] => Ok None | _ => bind (mk_covsum somes) (fun _ => Ok None) end = Ok q /\ q = @None cov).
    { destruct somes as [|q l] eqn:Es; [exists None; now split|]. rewrite M by discriminate. exists None. now split. }
    destruct X as (q & X & ->). rewrite X. cbn [or_else]. eexists. split; [reflexivity|]. split; [reflexivity|].
    intros l ->. exfalso. assert (T : forallb (fun k => match k with Some _ => true | None => false end) (map Some l) = true); [|congruence].
    apply forallb_forall. intros r Hr. now apply in_map_iff in Hr as (q & <- & _).
Qed.

(** ** Stacked covariance functions *)
(** In the argument along which the outputs are stacked, the outputs are combined. *)
Theorem C63_stack : forall m n c insh sh X K a g, coeffs_ok c -> c_dom c = insh -> c_cod c = sh -> sh <> [] -> (a <= 1)%nat ->
  (forall i, kok (X i) /\ kbuild m (X i) = Ok (K i) /\ is_cov (K i) = true /\ c_shape (K i) = insh) ->
  gen_stack n c insh sh (map K (all_indices sh)) a a = Ok g ->
  exists k, g = GOne (Some k) /\
    forall x0 x1, ceval k x0 x1 = match a with O => csem c (fun z i => kmean (X i) z x1) x0 | _ => csem c (fun z i => kmean (X i) x0 z) x1 end.
Proof.
  intros m n c insh sh X K a g O Ed Ec Ns Ha HX H.
  assert (F : forall i, fam insh (K i) /\ ceval (K i) = kmean (X i)).
  { intros i. destruct (HX i) as (Hx & Hk & Hc & Hs). destruct (kbuild_sound m (X i) (K i) Hx Hk) as [E|(s & F & E)]; [rewrite E in Hc; discriminate|].
    assert (s = insh) by (rewrite <- Hs; symmetry; now apply fam_shape). now subst s. }
  assert (Ia : isarg a) by (unfold isarg; lia).
  destruct (stack_sound c insh sh K a O Ec Ed Ns Ia n g (fun i _ => proj1 (F i)) H) as (k & -> & _ & V). exists k. split; [reflexivity|].
  intros x0 x1. rewrite V. unfold csum_arg. destruct a; f_equal; extensionality z; extensionality i; now rewrite (proj2 (F i)).
Qed.
Theorem C63_stack_exists : forall n c insh sh (e : index -> expquad) a, coeffs_ok c -> c_dom c = insh -> c_cod c = sh -> sh <> [] -> (a <= 1)%nat ->
  (forall i, eq_shape (e i) = insh) ->
  (multi_indices (known_order insh) c -> exists k, gen_stack (2 + n) c insh sh (map (fun i => CExp (e i)) (all_indices sh)) a a = Ok (GOne (Some k))) /\
  (multi_indices (fun al => known_order insh al \/ unknown_order insh al) c -> (exists i inn al y, In (i, inn) (c_dict c) /\ In (al, y) inn /\ unknown_order insh al) ->
    gen_stack (2 + n) c insh sh (map (fun i => CExp (e i)) (all_indices sh)) a a = Err TypeError).
Proof.
  intros n c insh sh e a O Ed Ec Ns Ha He. assert (Ia : isarg a) by (unfold isarg; lia).
  apply (stack_exp c insh sh (fun i => CExp (e i)) a O Ec Ed Ns Ia n e). intros i _. split; [reflexivity|apply He].
Qed.
(** In the other argument every output is treated by itself. *)
Theorem C63_stack_other : forall n c insh sh l oi a rs, (a <= 1)%nat -> (oi <= 1)%nat -> a <> oi -> sh <> [] -> c_dom c = insh -> c_cod c = [] ->
  Forall2 (fun k r => gen_ccall n c k a = Ok r) l rs -> gen_stack n c insh sh l oi a = Ok (GStack sh rs oi).
Proof.
  intros n c insh sh l oi a rs Ha Ho N Ns Ed Ec H. rewrite stack_other by (assumption || unfold isarg; lia).
  assert (E : mapM (fun k => gen_ccall n c k a) l = Ok rs); [|now rewrite E]. induction H as [|k r l rs Hk H IH]; [reflexivity|]. cbn [mapM]. rewrite Hk. cbn [bind]. now rewrite IH.
Qed.
Theorem C63_stack_other_error : forall n c insh sh l oi a l0 k l1 rs e, (a <= 1)%nat -> (oi <= 1)%nat -> a <> oi -> sh <> [] -> c_dom c = insh -> c_cod c = [] ->
  l = l0 ++ k :: l1 -> Forall2 (fun k r => gen_ccall n c k a = Ok r) l0 rs -> gen_ccall n c k a = Err e -> gen_stack n c insh sh l oi a = Err e.
Proof.
  intros n c insh sh l oi a l0 k l1 rs e Ha Ho N Ns Ed Ec -> H He. rewrite stack_other by (assumption || unfold isarg; lia).
  assert (E : mapM (fun k => gen_ccall n c k a) (l0 ++ k :: l1) = Err e); [|now rewrite E].
  induction H as [|k' r l rs Hk H IH]; cbn [mapM app]; [now rewrite He|]. rewrite Hk. cbn [bind]. now rewrite IH.
Qed.
Theorem C63_stack_shapes : forall n c insh sh l oi a, sh <> [] ->
  (1 < a)%nat \/ insh <> c_dom c \/ c_cod c <> (if (a =? oi)%nat then sh else []) -> gen_stack n c insh sh l oi a = Err ValueError.
Proof.
  intros n c insh sh l oi a Ns H. unfold gen_stack. destruct (shape_eqb_spec sh []) as [|_]; [congruence|]. destruct (Nat.ltb_spec 1 a) as [|L]; [reflexivity|].
  destruct (shape_eqb_spec insh (c_dom c)) as [E|E]; [|reflexivity].
  destruct (shape_eqb_spec (if (a =? oi)%nat then sh else []) (c_cod c)) as [E'|E']; [|reflexivity]. destruct H as [H|[H|H]]; [lia|congruence|congruence].
Qed.

Print Assumptions C63_constructor.
Print Assumptions C63_select.
Print Assumptions C63_select_error.
Print Assumptions C63_function.
Print Assumptions C63_function_total.
Print Assumptions C63_batch_refuted.
Print Assumptions C63_order_zero_refuted.
Print Assumptions C63_vector_function_refuted.
Print Assumptions C63_kernel.
Print Assumptions C63_kernel_exists.
Print Assumptions C63_kernel_order_refuted.
Print Assumptions C63_kernel_sum.
Print Assumptions C63_stack.
Print Assumptions C63_stack_exists.

(** ** Examples *)
(** The operator [2 d/dx + 3 d2/dx2] on the line, and the divergence on pairs of functions. *)
Definition ex_c : coeffs RF := Coeffs (F := RF) [([], [(MI [] [1%nat], 2); (MI [] [2%nat], 3)])] [] [].
Definition ex_div : coeffs RF := Coeffs (F := RF) [([0%Z], [(MI [] [1%nat], 1)]); ([(-1)%Z], [(MI [] [2%nat], 5)])] [] [2%nat].
Lemma ex_c_ok : coeffs_ok ex_c /\ multi_indices proper ex_c /\ multi_indices (known_order []) ex_c.
Proof.
  split; [split; [discriminate|]|split].
  - intros i inn [[= <- <-]|[]]. split; [discriminate|]. split; [constructor|]. intros a y [[= <- <-]|[[= <- <-]|[]]]; split; reflexivity.
  - intros i inn a y [[= <- <-]|[]] [[= <- <-]|[[= <- <-]|[]]]; discriminate.
  - intros i inn a y [[= <- <-]|[]] [[= <- <-]|[[= <- <-]|[]]]; right; (split; [reflexivity|]); cbn; lia.
Qed.
Lemma ex_div_ok : coeffs_ok ex_div /\ multi_indices (known_order []) ex_div.
Proof.
  split; [split; [discriminate|]|].
  - intros i inn [[= <- <-]|[[= <- <-]|[]]]; (split; [discriminate|]); (split; [repeat constructor; lia|]); intros a y [[= <- <-]|[]]; split; reflexivity.
  - intros i inn a y [[= <- <-]|[[= <- <-]|[]]] [[= <- <-]|[]]; right; (split; [reflexivity|]); cbn; lia.
Qed.
(** [1 + 3 t^2] plus a constant *)
Definition ex_f : fn := FSum [FPoly (PFloat [1; 0; 3]); FConst [] [] (fun _ => 7)].
Lemma ex_f_ok : fwf ex_f /\ fsm ex_f /\ unscaled ex_f.
Proof.
  split; [|split].
  - apply (wf_sum _ _ [] []). intros g [<-|[<-|[]]]; (split; [repeat constructor|]); auto; try discriminate.
  - intros i g H. cbn in H. destruct H as [H|[H|[]]]; discriminate.
  - intros g [<-|[<-|[]]]; reflexivity.
Qed.
Example C63_example_function : exists g, gen_call 6 ex_c ex_f = Ok (g, true) /\ (forall x, feval g x [] = csem ex_c (feval ex_f) x) /\
  gen_eval (g, true) false [4%nat] (fun _ _ => 0) = Err TypeError /\ exists v, gen_eval (g, true) false [] (fun _ _ => 0) = Ok v.
Proof.
  destruct ex_c_ok as (O & P & _), ex_f_ok as (W & Sm & U).
  destruct (C63_function_total 0 ex_c ex_f O eq_refl P W Sm U eq_refl eq_refl) as (g & Hg). exists g. split; [exact Hg|]. split.
  - now apply (C63_function 6 ex_c ex_f g true O eq_refl P W Sm).
  - split; [|eexists; reflexivity]. apply (C63_batch_refuted 0 ex_c ex_f g true O eq_refl P W Sm U); [reflexivity|reflexivity|reflexivity|exact Hg|]. exists 4%nat. split; [now left|discriminate].
Qed.
Definition ex_e : expquad := ExpQuad [] (fun _ => 1).
Example C63_example_kernel : exists k', gen_ccall 6 ex_c (CExp ex_e) 1 = Ok (Some k') /\
  forall x0 x1, ceval k' x0 x1 = in_arg 1 (fun f => csem ex_c (fun z _ => f z)) (expquad_fun [] (fun _ => 1)) x0 x1.
Proof.
  destruct ex_c_ok as (O & P & K). destruct (C63_kernel_exists 0 ex_c ex_e 1 O eq_refl eq_refl (le_n 1) K) as (k' & Hk). exists k'. split; [exact Hk|].
  exact (C63_kernel 0 6 ex_c (KExp ex_e) (CExp ex_e) 1 k' O I eq_refl Hk).
Qed.
Example C63_example_stack : exists k, gen_stack 2 ex_div [] [2%nat] (map (fun _ => CExp ex_e) (all_indices [2%nat])) 0 0 = Ok (GOne (Some k)) /\
  forall x0 x1, ceval k x0 x1 = csem ex_div (fun z _ => expquad_fun [] (fun _ => 1) z x1) x0.
Proof.
  destruct ex_div_ok as (O & K). destruct (C63_stack_exists 0 ex_div [] [2%nat] (fun _ => ex_e) 0 O eq_refl eq_refl ltac:(discriminate) ltac:(lia) ltac:(reflexivity)) as [G _].
  destruct (G K) as (k & Hk). exists k. split; [exact Hk|].
  destruct (C63_stack 0 2 ex_div [] [2%nat] (fun _ => KExp ex_e) (fun _ => CExp ex_e) 0 _ O eq_refl eq_refl ltac:(discriminate) ltac:(lia) ltac:(repeat split) Hk) as (k' & E & V).
  injection E as <-. exact V.
Qed.
