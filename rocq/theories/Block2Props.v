(** C16, C17: the 2x2 block operator. *)
From mathcomp Require Import all_ssreflect all_algebra.
From Verif Require Import Base Block2Model Block2Spec MatPD Block2Proofs.
Set Implicit Arguments. Unset Strict Implicit. Unset Printing Implicit Defensive.
Import GRing.Theory Num.Theory Order.TTheory.
Local Open Scope ring_scope.

Section Props.
Variable F : realFieldType.

(** ** Construction *)
(** The off-diagonal blocks the caller asked for. *)
Definition wanted_B m n (B : option (op F m n)) (C : option (op F n m)) (is_spd : bool) : 'M[F]_(m, n) :=
  match B, C with Some b, _ => mx b | None, Some c => if is_spd then (mx c)^T else 0 | None, None => 0 end.
Definition wanted_C m n (B : option (op F m n)) (C : option (op F n m)) (is_spd : bool) : 'M[F]_(n, m) :=
  match C, B with Some c, _ => mx c | None, Some b => if is_spd then (mx b)^T else 0 | None, None => 0 end.

Theorem C16_construct : forall m n (A : op F m m) B C (D : op F n n) (is_spd : bool),
  (forall M, mk_block2 A B C D is_spd = Ok M ->
     b2_todense M = block_mx (mx A) (wanted_B B C is_spd) (wanted_C B C is_spd) (mx D) /\
     is_block_diagonal M = ~~ isSome B && ~~ isSome C) /\
  ((exists M, mk_block2 A B C D is_spd = Ok M) <->
     match B, C with
     | None, None => True
     | Some _, Some _ => is_spd = false
     | _, _ => if is_spd then f_sym (fl A) /\ f_sym (fl D) /\ f_pd (fl A)
               else if B is None then f_lo (fl A) /\ f_lo (fl D) else f_up (fl A) /\ f_up (fl D)
     end) /\
  (forall e, mk_block2 A B C D is_spd = Err e -> e = AssertionError).
Proof.
move=> m n A B C D is_spd; split; [|split].
- move=> M; rewrite /mk_block2 /b2_todense; case: B => [b|]; case: C => [c|]; case: is_spd => //=; do ?case: ifP => // _;
    by move=> [<-].
- rewrite /mk_block2; case: B => [b|]; case: C => [c|]; case: is_spd => /=;
    case: (f_sym (fl A)); case: (f_sym (fl D)); case: (f_pd (fl A)); case: (f_lo (fl A)); case: (f_lo (fl D));
    case: (f_up (fl A)); case: (f_up (fl D)) => /=;
    (split; [intros [M H]; try discriminate H; repeat split; reflexivity
            | intros H; first [eexists; reflexivity | exfalso; intuition discriminate]]).
- by move=> e; rewrite /mk_block2; case: B => [b|]; case: C => [c|]; case: is_spd => //=; do ?case: ifP => // _; move=> [<-].
Qed.

(** Truthful inputs give an operator with truthful flags.  [is_spd=True] is the
    caller's promise that the completed matrix is positive definite. *)
Theorem C16_flags : forall m n (A : op F m m) B C (D : op F n n) (is_spd : bool) M,
  truthful (mx A) (fl A) -> truthful (mx D) (fl D) ->
  (is_spd -> isSome B || isSome C -> posdef (block_mx (mx A) (wanted_B B C true) (wanted_C B C true) (mx D))) ->
  mk_block2 A B C D is_spd = Ok M -> truthful2 M.
Proof.
move=> m n A B C D is_spd M [SA PA LA UA] [SD PD LD UD] HP; rewrite /mk_block2.
case: B HP => [b|]; case: C => [c|]; case: is_spd => //= HP; do ?case: ifP => //.
all: rewrite /truthful2 /truthful /b2_todense.
- by move=> [<-] /=.
- move=> /and3P [sA sD pA] [<-] /=; have P := HP isT isT.
  by split=> //; split=> //= _; case: P.
- by move=> /andP [uA uD] [<-] /=; split=> //; split=> //= _; apply: upper_block; [apply: UA | apply: UD].
- move=> /and3P [sA sD pA] [<-] /=; have P := HP isT isT.
  by split=> //; split=> //= _; case: P.
- by move=> /andP [uA uD] [<-] /=; split=> //; split=> //= _; apply: lower_block; [apply: LA | apply: LD].
- move=> [<-] /=; split=> //; split=> //= /andP [sA sD]; by rewrite tr_block_mx !trmx0 SA ?SD.
- move=> [<-] /=; split=> //; split=> //= /andP [sA sD]; by rewrite tr_block_mx !trmx0 SA ?SD.
Qed.

(** ** Product, transpose, trace *)
Theorem C16_matmul : forall m n p (M : block2 F m n) (x : 'M[F]_(m + n, p)), b2_matmul M x = b2_todense M *m x.
Proof. by move=> m n p M x; rewrite /b2_matmul /b2_todense -[in RHS](vsubmxK x) mul_block_col. Qed.

Lemma b2_T_ok m n (M : block2 F m n) : truthful2 M -> exists2 N, b2_T M = Ok N & b2_todense N = (b2_todense M)^T /\ truthful2 N.
Proof.
move=> TM; have [[S P L U] Dg] := TM; rewrite /b2_T; case: ifP => [s|s].
  by exists M => //; split=> //; rewrite S.
eexists; first by reflexivity.
have E : block_mx (mx (bA M))^T (mx (bC M))^T (mx (bB M))^T (mx (bD M))^T = (b2_todense M)^T by rewrite tr_block_mx.
rewrite /truthful2 /truthful /b2_todense /= E; split=> //; split=> //; split.
- by rewrite s.
- by move=> p; have PM := P p; rewrite (proj1 PM).
- by move=> u; apply: upper_T; apply: U.
- by move=> l; apply: lower_T; apply: L.
Qed.
(** Transposing gives the operator of the transposed matrix, again with
    truthful flags. *)
Theorem C16_transpose : forall m n (M : block2 F m n), truthful2 M ->
  exists2 N, b2_T M = Ok N & b2_todense N = (b2_todense M)^T /\ truthful2 N.
Proof. exact b2_T_ok. Qed.

Theorem C16_trace : forall m n (M : block2 F m n), b2_trace M = \tr (b2_todense M).
Proof. by move=> m n M; rewrite /b2_trace /b2_todense mxtrace_block. Qed.

(** ** Cholesky-based parts *)
Variable chol : forall n : nat, 'M[F]_n -> 'M[F]_n.
Hypothesis cholP : chol_spec chol.

Lemma chol_unit n (A : 'M[F]_n) : posdef A -> chol A \in unitmx.
Proof.
move=> PA; have [_ E] := cholP PA; by have := posdef_unit PA; rewrite -{1}E unitmx_mul => /andP [].
Qed.

Lemma schur_spd m n (M : block2 F m n) : truthful2 M -> f_sym (bfl M) && f_pd (bfl M) ->
  exists2 S, b2_schur chol M = Ok S & mx S = schur_of (mx (bA M)) (mx (bB M)) (mx (bD M)) /\
    mx (bC M) = (mx (bB M))^T /\ posdef (mx (bA M)) /\ posdef (mx S) /\
    mx S = mx (bD M) - mx (bC M) *m invmx (mx (bA M)) *m mx (bB M).
Proof.
move=> [[_ P _ _] _] sp; rewrite /b2_schur /L_A_inv_B sp /=; eexists; first by reflexivity.
move: sp => /andP [s p]; have PM := P p; rewrite /b2_todense in PM.
have PA := posdef_block_ul PM; have [EC _] := posdef_block_sym PM.
have [_ EL] := cholP PA; have UL := chol_unit PA.
have ES : mx (bD M) - (invmx (chol (mx (bA M))) *m mx (bB M))^T *m (invmx (chol (mx (bA M))) *m mx (bB M)) =
          schur_of (mx (bA M)) (mx (bB M)) (mx (bD M)).
  rewrite /schur_of; congr (_ - _); rewrite trmx_mul !mulmxA; congr (_ *m _); rewrite -mulmxA; congr (_ *m _).
  rewrite trmx_inv -[in RHS]EL.
  by rewrite invmx_mulmx ?unitmx_tr.
rewrite /= ES; split=> //; split=> //; split=> //; split; last by rewrite /schur_of EC.
by apply: posdef_schur; rewrite -EC.
Qed.

Lemma schur_gen m n (M : block2 F m n) : truthful2 M ->
  exists2 S, b2_schur chol M = Ok S & mx S = mx (bD M) - mx (bC M) *m invmx (mx (bA M)) *m mx (bB M) /\
    f_sym (fl S) = f_sym (bfl M) /\ f_pd (fl S) = f_pd (bfl M).
Proof.
move=> TM; case sp : (f_sym (bfl M) && f_pd (bfl M)).
  have [S E [_ [_ [_ [_ H]]]]] := schur_spd TM sp; exists S => //; split=> //.
  by move: E; rewrite /b2_schur /L_A_inv_B sp /= => [[<-]].
by rewrite /b2_schur sp; eexists; first by reflexivity.
Qed.
(** The Schur complement, in the symmetric and in the general branch. *)
Theorem C16_schur : forall m n (M : block2 F m n), truthful2 M ->
  exists2 S, b2_schur chol M = Ok S & mx S = mx (bD M) - mx (bC M) *m invmx (mx (bA M)) *m mx (bB M) /\
    f_sym (fl S) = f_sym (bfl M) /\ f_pd (fl S) = f_pd (bfl M).
Proof. exact schur_gen. Qed.

Theorem C16_det : forall m n (M : block2 F m n), truthful2 M -> b2_det chol M = Ok (\det (b2_todense M)).
Proof.
move=> m n M TM; have [[S P L U] Dg] := TM; rewrite /b2_det.
case d : (is_block_diagonal M) => /=.
  by have [EB EC] := Dg d; rewrite /b2_todense EB EC det_lblock.
case l : (f_lo (bfl M)) => /=; first by have := L l; rewrite /b2_todense => /lower_block_ur ->; rewrite det_lblock.
case u : (f_up (bfl M)) => /=; first by have := U u; rewrite /b2_todense => /upper_block_dl ->; rewrite det_ublock.
case sp : (f_sym (bfl M) && f_pd (bfl M)) => //.
have [Sc -> [_ [EC [PA [_ ES]]]]] := schur_spd TM sp.
by rewrite /b2_todense det_schur ?posdef_unit //= ES.
Qed.

Lemma b2_chol m n (M : block2 F m n) lower : truthful2 M -> f_sym (bfl M) && f_pd (bfl M) ->
  exists2 L, b2_cholesky chol M lower = Ok L &
    truthful2 L /\ f_sym (bfl L) = false /\ is_block_diagonal L = false /\
    (if lower then lower_tri (b2_todense L) /\ b2_todense L *m (b2_todense L)^T = b2_todense M
     else upper_tri (b2_todense L) /\ (b2_todense L)^T *m b2_todense L = b2_todense M).
Proof.
move=> TM sp; have [S ES [E1 [EC [PA [PS _]]]]] := schur_spd TM sp.
rewrite /b2_cholesky /L_A_inv_B sp ES /=.
have [LA EA] := cholP PA; have [LS ESS] := cholP PS; have UA := chol_unit PA.
set X := invmx (chol (mx (bA M))) *m mx (bB M).
have EX : chol (mx (bA M)) *m X = mx (bB M) by rewrite /X mulmxA mulmxV // mul1mx.
have EXS : X^T *m X + chol (mx S) *m (chol (mx S))^T = mx (bD M).
  rewrite ESS; move: ES; rewrite /b2_schur /L_A_inv_B sp /= -/X => [[<-]] /=.
  by rewrite addrC subrK.
have EB : block_mx (chol (mx (bA M))) 0 X^T (chol (mx S)) *m (block_mx (chol (mx (bA M))) 0 X^T (chol (mx S)))^T = b2_todense M.
  rewrite tr_block_mx trmx0 trmxK mulmx_block !mul0mx !mulmx0 !addr0 EA EX EXS /b2_todense EC; congr block_mx.
  by rewrite -trmx_mul EX.
have LB := lower_block X^T LA LS.
case: lower; eexists; try by reflexivity.
- by split; [split=> //; split=> //= _ | ].
- have EU : b2_todense (B2 (op_T (op_cholesky chol (bA M))) (Op X no_flags) (op_zero F n m) (op_T (op_cholesky chol S)) false
                (Flags false false false true)) = (block_mx (chol (mx (bA M))) 0 X^T (chol (mx S)))^T.
    by rewrite /b2_todense /= tr_block_mx trmx0 trmxK.
  rewrite /truthful2 /truthful EU; split=> //=; last by rewrite trmxK; do ?split=> //; apply: lower_T.
  by split=> //; split=> // _; apply: lower_T.
Qed.
(** The Cholesky factor assembled from the blocks is triangular and multiplies
    out to the operator. *)
Theorem C16_cholesky : forall m n (M : block2 F m n), truthful2 M -> f_sym (bfl M) && f_pd (bfl M) ->
  (exists2 L, b2_cholesky chol M true = Ok L & lower_tri (b2_todense L) /\ b2_todense L *m (b2_todense L)^T = b2_todense M) /\
  (exists2 U, b2_cholesky chol M false = Ok U & upper_tri (b2_todense U) /\ (b2_todense U)^T *m b2_todense U = b2_todense M).
Proof.
move=> m n M TM sp; split.
  by have [L E [_ [_ [_ H]]]] := b2_chol true TM sp; exists L.
by have [L E [_ [_ [_ H]]]] := b2_chol false TM sp; exists L.
Qed.
Theorem C16_cholesky_not_spd : forall m n (M : block2 F m n) lower, f_sym (bfl M) && f_pd (bfl M) = false ->
  b2_cholesky chol M lower = Err ValueError /\ L_A_inv_B chol M = Err ValueError.
Proof. by move=> m n M lower sp; rewrite /b2_cholesky /L_A_inv_B sp. Qed.

(** The flags of the blocks themselves stay truthful: those of the transposed
    operator, and those of the Cholesky factors (which are factors again, so a
    block operator can be built from them). *)
Definition truthful_blocks m n (M : block2 F m n) : Prop := truthful (mx (bA M)) (fl (bA M)) /\ truthful (mx (bD M)) (fl (bD M)).
Lemma truthful_T n (a : op F n n) : truthful (mx a) (fl a) -> truthful (mx (op_T a)) (fl (op_T a)).
Proof.
case=> S P L U; split=> /=.
- by move=> s; rewrite (S s) (S s).
- by move=> p; rewrite (proj1 (P p)); apply: P.
- by move=> u; apply: upper_T; apply: U.
- by move=> l; apply: lower_T; apply: L.
Qed.
Lemma truthful_chol n (a : op F n n) : posdef (mx a) -> truthful (mx (op_cholesky chol a)) (fl (op_cholesky chol a)).
Proof. by move=> P; split=> //= _; case: (cholP P). Qed.
Theorem C16_block_flags : forall m n (M : block2 F m n), truthful2 M -> truthful_blocks M ->
  (exists2 N, b2_T M = Ok N & truthful_blocks N) /\
  (f_sym (bfl M) && f_pd (bfl M) -> forall lower, exists2 L, b2_cholesky chol M lower = Ok L & truthful_blocks L /\
     (if lower then f_lo (fl (bA L)) && f_lo (fl (bD L)) else f_up (fl (bA L)) && f_up (fl (bD L)))).
Proof.
move=> m n M TM [TA TD]; split.
  rewrite /b2_T; case: ifP => s; first by exists M.
  by eexists; first reflexivity; split=> /=; apply: truthful_T.
move=> sp lower; have [S ES [_ [_ [PA [PS _]]]]] := schur_spd TM sp.
rewrite /b2_cholesky /L_A_inv_B sp ES /=; case: lower; (eexists; first reflexivity); split=> //; split=> /=.
- exact: truthful_chol.
- exact: truthful_chol.
- by apply: (@truthful_T _ (op_cholesky chol (bA M))); apply: truthful_chol.
- by apply: (@truthful_T _ (op_cholesky chol S)); apply: truthful_chol.
Qed.

(** ** C17 *)
Lemma solve_ns tri m n p (M : block2 F m n) (b : 'M[F]_(m + n, p)) : truthful2 M -> b2_todense M \in unitmx ->
  b2_todense M *m b2_solve_ns tri M b = b.
Proof.
move=> [[S P L U] Dg] UM; rewrite /b2_solve_ns.
case d : (is_block_diagonal M).
  move: UM; have [EB EC] := Dg d; rewrite /b2_todense EB EC block_unit_lower => /andP [UA UD].
  by rewrite mul_block_col !mul0mx addr0 add0r !mulKVmx // vsubmxK.
case l : (f_lo (bfl M)).
  case: tri; last by rewrite mulKVmx.
  move: UM; have := L l; rewrite /b2_todense => /lower_block_ur ->; rewrite block_unit_lower => /andP [UA UD].
  by rewrite mul_block_col mul0mx addr0 !mulKVmx // addrC subrK vsubmxK.
case u : (f_up (bfl M)); last by rewrite mulKVmx.
case: tri; last by rewrite mulKVmx.
move: UM; have := U u; rewrite /b2_todense => /upper_block_dl ->; rewrite block_unit_upper => /andP [UA UD].
by rewrite mul_block_col mul0mx add0r !mulKVmx // subrK vsubmxK.
Qed.
Lemma solve tri m n p (M : block2 F m n) (b : 'M[F]_(m + n, p)) : truthful2 M -> b2_todense M \in unitmx ->
  (f_sym (bfl M) -> f_pd (bfl M) || is_block_diagonal M) ->
  exists2 x, b2_solve chol tri M b = Ok x & b2_todense M *m x = b.
Proof.
move=> TM UM H; rewrite /b2_solve; case d : (is_block_diagonal M); first by eexists; [reflexivity | exact: solve_ns].
case s : (f_sym (bfl M)); last by eexists; [reflexivity | exact: solve_ns].
have sp : f_sym (bfl M) && f_pd (bfl M) by rewrite s; move: (H s); rewrite d orbF.
have [L -> [TL [_ [_ [_ EL]]]]] := b2_chol true TM sp.
have [LT /= -> [ELT TLT]] := b2_T_ok TL; eexists; first by reflexivity.
have UL : b2_todense L \in unitmx by move: UM; rewrite -EL unitmx_mul => /andP [].
by rewrite -EL -ELT -mulmxA !solve_ns // ELT unitmx_tr.
Qed.
(** Every branch of solve returns the solution, with and without block
    triangular solves. *)
Theorem C17_solve : forall tri m n p (M : block2 F m n) (b : 'M[F]_(m + n, p)), truthful2 M -> b2_todense M \in unitmx ->
  (f_sym (bfl M) -> f_pd (bfl M) || is_block_diagonal M) ->
  exists2 x, b2_solve chol tri M b = Ok x & b2_todense M *m x = b.
Proof. exact solve. Qed.

(** [schur_update] extends the solution for the leading block. *)
Lemma schur_update m n (M : block2 F m n) (u : 'cV_m) (v : 'cV_n) : truthful2 M ->
  mx (bA M) \in unitmx -> b2_todense M \in unitmx ->
  exists2 z, b2_schur_update chol M (invmx (mx (bA M)) *m u) v = Ok z & b2_todense M *m z = col_mx u v.
Proof.
move=> TM UA UM; have [[S P L U] Dg] := TM; rewrite /b2_schur_update; case d : (is_block_diagonal M).
  eexists; first by reflexivity.
  move: UM; have [EB EC] := Dg d; rewrite /b2_todense EB EC block_unit_lower => /andP [_ UD].
  by rewrite mul_block_col !mul0mx addr0 add0r !mulKVmx.
have [Sc -> [ES _]] := schur_gen TM; rewrite /=; eexists; first by reflexivity.
have US : mx Sc \in unitmx.
  by move: UM; rewrite /b2_todense !unitmxE det_schur // unitrM -ES => /andP [].
rewrite /b2_todense mul_block_col; set w := v - _; set y := invmx (mx Sc) *m w.
have Sy : mx (bD M) *m y = w + mx (bC M) *m invmx (mx (bA M)) *m mx (bB M) *m y.
  by rewrite -(mulKVmx US w) -/y ES mulmxBl subrK.
clearbody y; congr col_mx; first by rewrite mulmxBr mulKVmx // !mulmxA mulmxV // mul1mx subrK.
have aux (V : zmodType) (a1 c1 d1 : V) : a1 - c1 + (d1 - a1 + c1) = d1.
  by rewrite addrC addrA [LHS]addrAC addrK subrK.
by rewrite Sy mulmxBr /w !mulmxA aux.
Qed.
Theorem C17_schur_update : forall m n (M : block2 F m n) (u : 'cV_m) (v : 'cV_n), truthful2 M ->
  mx (bA M) \in unitmx -> b2_todense M \in unitmx ->
  exists2 z, b2_schur_update chol M (invmx (mx (bA M)) *m u) v = Ok z & b2_todense M *m z = col_mx u v.
Proof. exact schur_update. Qed.
End Props.
Print Assumptions C16_construct.
Print Assumptions C16_flags.
Print Assumptions C16_matmul.
Print Assumptions C16_transpose.
Print Assumptions C16_trace.
Print Assumptions C16_schur.
Print Assumptions C16_det.
Print Assumptions C16_cholesky.
Print Assumptions C16_cholesky_not_spd.
Print Assumptions C16_block_flags.
Print Assumptions C17_solve.
Print Assumptions C17_schur_update.

(** The Cholesky contract is satisfiable over every real closed field, and a
    concrete symmetric block operator meets the hypotheses. *)
Theorem C16_cholesky_contract_satisfiable : forall R : rcfType, exists chol : forall n, 'M[R]_n -> 'M[R]_n, chol_spec chol.
Proof. exact chol_exists. Qed.
Print Assumptions C16_cholesky_contract_satisfiable.

Definition ex_flags := Flags true true false false.
Definition ex_A : op [realFieldType of rat] 1 1 := Op 2%:M ex_flags.
Definition ex_B : op [realFieldType of rat] 1 1 := Op 1%:M no_flags.
Lemma ex_A_pd : posdef (mx ex_A).
Proof.
split; first by rewrite tr_scalar_mx.
move=> v v0; rewrite /qform /= mul_mx_scalar -scalemxAl mxE; apply: mulr_gt0 => //.
rewrite -[v^T]mulmx1 -/(qform 1%:M v) lt_neqAle qform_ge0_1 andbT eq_sym; apply: contra v0 => /eqP E.
by apply/eqP; apply: qform1_eq0.
Qed.
Example C16_example : exists2 M, mk_block2 ex_A (Some ex_B) None ex_A true = Ok M & truthful2 M.
Proof.
eexists; first by reflexivity.
apply: (@C16_flags _ 1 1 ex_A (Some ex_B) None ex_A true _ _ _ _ (erefl _)).
- by split=> // _; [case: ex_A_pd | exact: ex_A_pd].
- by split=> // _; [case: ex_A_pd | exact: ex_A_pd].
move=> _ _ /=; apply: posdef_block; first exact: ex_A_pd.
rewrite /schur_of /= tr_scalar_mx mul1mx mulmx1 invmx_scalar -raddfB.
split; first by rewrite tr_scalar_mx.
move=> v v0; rewrite /qform /= mul_mx_scalar -scalemxAl mxE; apply: mulr_gt0 => //.
rewrite -[v^T]mulmx1 -/(qform 1%:M v) lt_neqAle qform_ge0_1 andbT eq_sym; apply: contra v0 => /eqP E.
by apply/eqP; apply: qform1_eq0.
Qed.
