From mathcomp Require Import all_ssreflect all_algebra.
From Coq Require Import Permutation.
From Verif Require Import Base Block2Model Block2Spec MatPD Block2Proofs Block2Props NormalModel NormalSpec NormalProofs
  CondModel CondSpec CondProofs CondProofs2.
Set Implicit Arguments. Unset Strict Implicit. Unset Printing Implicit Defensive.
Import GRing.Theory Num.Theory.
Local Open Scope ring_scope.
Arguments from_observations : simpl never.
Arguments condition_on : simpl never.

Section P.
Variables (F : realFieldType) (X : Type).
Variable chol : forall n : nat, 'M[F]_n -> 'M[F]_n.
Hypothesis cholP : chol_spec chol.
Variable tri : bool.
Variables (g : gp F X) (Sf : (fn F X -> F) -> Prop) (So : funop F X -> Prop).
Hypothesis ad : admissible (gmean g) (gcov g) Sf So.
Notation m := (gmean g).
Notation k := (gcov g).
Implicit Types (E D : funop F X) (l : fn F X -> F).
Notation okE := (okE g Sf So).
Notation okL := (okL Sf).

(** ** Weights *)
Definition cols : Type := {n & 'cV[F]_n}.
Definition spec_weights (sm : summary F X) : option cols :=
  if s_data sm is Some (existT n d) then Some (existT (fun n => 'cV[F]_n) n (invmx (dgram k d) *m dres m d)) else None.
Definition p_weights (p : process F X) : option cols :=
  if p is Posterior s then Some (existT (fun n => 'cV[F]_n) _ (c_w s)) else None.
Lemma pinv_weights p sm : pinv g Sf So p sm -> p_weights p = spec_weights sm.
Proof.
case: sm => [dd E]; case: p => [g'|s]; rewrite /pinv /spec_weights /=; first by case: dd.
by case: dd => // dd [d [[HE Hm Hk HLd Hkl HG Hs Hw] <-]]; rewrite Hw.
Qed.

(** ** The weights recomputed from the stored observations *)
Definition lz (p : process F X) (sm : summary F X) : Prop :=
  match p, s_data sm with
  | Plain g', None => g' = g
  | Posterior s, Some (existT n d) => c_prior s = g /\
      existT (fun n => 'cV[F]_n) _ (c_Y s - c_L s m - c_b s) = existT (fun n => 'cV[F]_n) n (dres m d)
  | _, _ => False
  end.
Lemma lz_step p p' dd o : lz p (Summary dd id) -> step chol tri p (Cond o) = Ok p' -> lz p' (s_step (Summary dd id) (Cond o)).
Proof.
case: p => [g'|s]; rewrite /lz /=.
  case: dd => [[]|] //= ->.
  change (bind (from_observations g o) (fun s => Ok (Posterior s)) = Ok p' ->
    match p' with Plain g' => False | Posterior s => c_prior s = g /\
      existT (fun n => 'cV[F]_n) _ (c_Y s - c_L s m - c_b s) = existT (fun n => 'cV[F]_n) _ (dres m (data_of id o)) end).
  by rewrite /from_observations /= => -[<-].
case: dd => [[n d]|] //= [Ep Ed].
change (bind (condition_on chol tri s o) (fun s => Ok (Posterior s)) = Ok p' ->
    match p' with Plain g' => False | Posterior s => c_prior s = g /\
      existT (fun n => 'cV[F]_n) _ (c_Y s - c_L s m - c_b s) = existT (fun n => 'cV[F]_n) _ (dres m (stack d (data_of id o))) end).
rewrite /condition_on; case: (mk_block2 _ _ _ _ _) => //= M; case: (b2_schur_update _ _ _ _) => //= w [<-] /=.
split=> //; rewrite dres_stack !opp_col_mx !add_col_mx.
exact: (f_equal (fun t : cols => existT (fun n => 'cV[F]_n) (projT1 t + o_dim o)%N
  (col_mx (projT2 t) (dres m (data_of id o)))) Ed).
Qed.
Lemma lz_run os p p' dd : lz p (Summary dd id) -> run chol tri p [seq Cond o | o <- os] = Ok p' ->
  lz p' (foldl (@s_step _ _) (Summary dd id) [seq Cond o | o <- os]).
Proof.
elim: os p dd => [|o os IH] p dd I; first by move=> [<-].
rewrite [run _ _ _ _]/(bind (step chol tri p (Cond o)) (fun p' => run chol tri p' [seq Cond o | o <- os])).
case Es: (step _ _ _ _) => [p1|] //= R; exact: (IH p1 _ (lz_step I Es) R).
Qed.
Lemma lazy_ok s sm : pinv g Sf So (Posterior s) sm -> lz (Posterior s) sm -> lazy_weights s = Ok (c_w s).
Proof.
case: sm => [dd E]; rewrite /pinv /lz /=; case: dd => // dd [d [[HE Hm Hk HLd Hkl HG Hs Hw] <-]] [Ep Ed].
rewrite /lazy_weights Hs Hw Ep; congr (Ok (_ *m _)).
by apply: (Eqdep_dec.inj_pair2_eq_dec _ PeanoNat.Nat.eq_dec (fun n => 'cV[F]_n)).
Qed.

(** ** Evaluation as a linear operator *)
Lemma linop_ok s sm q0 q1 (xs0 : 'I_q0 -> X) (xs1 : 'I_q1 -> X) : pinv g Sf So (Posterior s) sm ->
  c_cov_linop s xs0 xs1 = Ok (\matrix_(i, j) spec_cov g sm (xs0 i) (xs1 j)).
Proof.
case: sm => [dd E]; rewrite /pinv /=; case: dd => // dd [d [[HE Hm Hk HLd Hkl HG Hs Hw] <-]].
have R q (xs : 'I_q -> X) a : row a (c_kLas_linop s xs) = dcross k E d (xs a) by apply/rowP=> b; rewrite -Hkl !mxE.
rewrite /c_cov_linop Hs /= mulmxA; congr Ok; apply/matrixP=> i j.
by rewrite mxBE entry_sandwich !R [X in X - _]mxE [in RHS]mxE /spec_cov /= /post_cov Hk.
Qed.

(** ** Noise-free data are reproduced *)
Lemma interpolation o s : okL (@o_L _ _ o) -> noise_covm (o_b o) = 0 -> dgram k (data_of id o) \in unitmx ->
  pinv g Sf So (Posterior s) (summarise [:: Cond o]) ->
  functl_cgp (@o_L _ _ o) s = Normal (o_Y o - noise_meanv (o_b o)) 0.
Proof.
move=> HL HN U I; have [d [I' Ed]] := I; rewrite (functl_cgpE ad I' HL) /=.
move: d Ed {I I'}; move: (c_dim s) => n d Ed; have [En] := Ed.
case: _ / (esym En) d Ed => d Ed.
have {Ed} -> : d = data_of id o by apply: (Eqdep_dec.inj_pair2_eq_dec _ PeanoNat.Nat.eq_dec (data F X)).
have EG : dgram k (data_of id o) = xgram g (@o_L _ _ o) (@o_L _ _ o) by rewrite dgramE /= HN addr0.
have EL : lcross g id (data_of id o) (@o_L _ _ o) = dgram k (data_of id o).
  rewrite EG; apply/matrixP=> i j; rewrite !mxE; apply: (sf_ext ad (HL i)) => x; by rewrite mxE.
rewrite EL mulmxV // !mul1mx -EG.
have [-> _] : possemidef (dgram k (data_of id o)).
  by apply: (dgram_semi ad) => //; rewrite /= HN; apply: possemidef0.
by rewrite subrr /dres /= [X in Normal X _](_ : _ = o_Y o - noise_meanv (o_b o)) // addrCA addrA subrK.
Qed.

(** ** Reordering the data *)
Record reind n n' (d : data F X n) (d' : data F X n') (P : 'M[F]_(n', n)) : Prop := Reind {
  r_1 : P *m P^T = 1%:M;
  r_2 : P^T *m P = 1%:M;
  r_L : forall f, d_L d' f = P *m d_L d f;
  r_Y : d_Y d' = P *m d_Y d;
  r_b : d_b d' = P *m d_b d;
  r_N : d_N d' = P *m d_N d *m P^T }.
Lemma inv_unique n (A B : 'M[F]_n) : A *m B = 1%:M -> (A \in unitmx) /\ invmx A = B.
Proof. by move=> H; have [U _] := mulmx1_unit H; split=> //; rewrite -[B](mulKmx U) H mulmx1. Qed.
Lemma lin_mul p n (P : 'M[F]_(p, n)) l (v : X -> 'cV[F]_n) i : linear_on (reached m k Sf So) l ->
  (forall j, reached m k Sf So (fun x => v x j 0)) -> l (fun x => (P *m v x) i 0) = \sum_j P i j * l (fun x => v x j 0).
Proof.
move=> H Hv; have [He _ Hs] := H; rewrite (He _ (fun x => \sum_j P i j * v x j 0)); last by move=> x; rewrite mxE.
rewrite (lin_sum (f := fun j x => P i j * v x j 0) H); last by move=> j; apply: (reached_scale _ (Hv j)).
by apply: eq_bigr => j _; rewrite Hs.
Qed.
Section Reind.
Variables (n n' : nat) (d : data F X n) (d' : data F X n') (P : 'M[F]_(n', n)).
Hypothesis (HL : okL (d_L d)) (HR : reind d d' P).
Lemma reind_gram : dgram k d' = P *m dgram k d *m P^T.
Proof.
have [R1 R2 RL RY Rb RN] := HR.
rewrite !dgramE RN mulmxDr mulmxDl; congr (_ + _); apply/matrixP=> i j; rewrite mxE RL mxE [RHS]mxE.
transitivity (\sum_r P i r * \sum_s P j s * xgram g (d_L d) (d_L d) r s).
  apply: eq_bigr => r _; congr (_ * _).
  rewrite (okL_ext ad HL (h := fun x => (P *m d_L d (k x)) j 0)); last by move=> x; rewrite RL.
  rewrite [LHS](lin_mul P (v := fun x => d_L d (k x)) j (ad_lin ad (HL r))); last by move=> s; exact: (reached_cov m k So (HL s)).
  by apply: eq_bigr => s _; rewrite mxE.
under eq_bigr do rewrite big_distrr /=.
rewrite exchange_big /=; apply: eq_bigr => s _; rewrite !mxE big_distrl /=; apply: eq_bigr => r _.
by rewrite mulrCA mulrC.
Qed.
Lemma reind_cross E x : okE E -> dcross k E d' x = dcross k E d x *m P^T.
Proof.
have [R1 R2 RL RY Rb RN] := HR; move=> HE; apply/rowP=> j; rewrite !mxE.
rewrite (okE_ext ad HE (h := fun x => (P *m d_L d (k x)) j 0)); last by move=> y; rewrite RL.
rewrite [LHS](lin_mul P (v := fun x => d_L d (k x)) j (ad_lin ad (okE_at ad x HE))); last by move=> s; exact: (reached_cov m k So (HL s)).
by apply: eq_bigr => s _; rewrite !mxE mulrC.
Qed.
Lemma reind_res : dres m d' = P *m dres m d.
Proof. by have [R1 R2 RL RY Rb RN] := HR; rewrite /dres RY RL Rb !mulmxBr. Qed.
Lemma reind_inv : dgram k d \in unitmx -> dgram k d' \in unitmx /\ invmx (dgram k d') = P *m invmx (dgram k d) *m P^T.
Proof.
have [R1 R2 RL RY Rb RN] := HR.
move=> U; rewrite reind_gram; apply: inv_unique.
by rewrite !mulmxA -[X in X *m invmx _]mulmxA R2 mulmx1 -[X in X *m P^T]mulmxA mulmxV // mulmx1.
Qed.
Lemma reind_mean E x : okE E -> dgram k d \in unitmx -> post_mean m k E d' x = post_mean m k E d x.
Proof.
have [R1 R2 RL RY Rb RN] := HR.
move=> HE U; have [_ EI] := reind_inv U; rewrite /post_mean EI reind_cross // reind_res.
by rewrite !mulmxA -[_ *m P^T *m P]mulmxA R2 mulmx1 -[_ *m P^T *m P]mulmxA R2 mulmx1.
Qed.
Lemma reind_cov E x y : okE E -> dgram k d \in unitmx -> post_cov k E d' x y = post_cov k E d x y.
Proof.
have [R1 R2 RL RY Rb RN] := HR.
move=> HE U; have [_ EI] := reind_inv U; rewrite /post_cov EI !reind_cross // trmx_mul trmxK.
by rewrite !mulmxA -[_ *m P^T *m P]mulmxA R2 mulmx1 -[_ *m P^T *m P]mulmxA R2 mulmx1.
Qed.
End Reind.

Definition same_data (a b : option {n & data F X n}) : Prop :=
  match a, b with
  | None, None => True
  | Some (existT n d), Some (existT n' d') => exists P, reind d d' P
  | _, _ => False
  end.
Lemma same_refl a : same_data a a.
Proof. by case: a => [[n d]|] //=; exists 1%:M; split=> [|||||]; rewrite ?trmx1 ?mul1mx ?mulmx1 // => f; rewrite mul1mx. Qed.
Lemma same_trans b a c : same_data a b -> same_data b c -> same_data a c.
Proof.
case: a b c => [[n d]|] [[n' d']|] [[n'' d'']|] //= [P [R1 R2 RL RY Rb RN]] [Q [S1 S2 SL SY Sb SN]].
exists (Q *m P); split=> [|||||]; rewrite ?trmx_mul.
- by rewrite mulmxA -[_ *m _ *m P^T]mulmxA R1 mulmx1.
- by rewrite mulmxA -[_ *m _ *m Q]mulmxA S2 mulmx1.
- by move=> f; rewrite SL RL mulmxA.
- by rewrite SY RY mulmxA.
- by rewrite Sb Rb mulmxA.
- by rewrite SN RN !mulmxA.
Qed.
Definition diagP n n' p (P : 'M[F]_(n', n)) : 'M[F]_(n' + p, n + p) := block_mx P 0 0 1%:M.
Lemma same_step a b E e : same_data a b -> same_data (s_data (s_step (Summary a E) e)) (s_data (s_step (Summary b E) e)).
Proof.
case: e => [o|D] //=; case: a b => [[n d]|] [[n' d']|] //=; last by move=> _; apply: (same_refl (Some (existT _ _ _))).
move=> [P [R1 R2 RL RY Rb RN]]; exists (diagP (o_dim o) P); rewrite /diagP; split=> [||f|||] /=.
- by rewrite tr_block_mx !trmx0 trmx1 mulmx_block !mulmx0 !mul0mx !addr0 !add0r mulmx1 R1 -scalar_mx_block.
- by rewrite tr_block_mx !trmx0 trmx1 mulmx_block !mulmx0 !mul0mx !addr0 !add0r mulmx1 R2 -scalar_mx_block.
- by rewrite mul_block_col !mul0mx addr0 add0r mul1mx RL.
- by rewrite mul_block_col !mul0mx addr0 add0r mul1mx RY.
- by rewrite mul_block_col !mul0mx addr0 add0r mul1mx Rb.
- by rewrite tr_block_mx !trmx0 trmx1 !mulmx_block !(mulmx0, mul0mx, addr0, add0r, mulmx1, mul1mx) RN.
Qed.
Definition swapP p q : 'M[F]_(q + p, p + q) := block_mx 0 1%:M 1%:M 0.
Lemma same_stack_swap p q (a : data F X p) (b : data F X q) : reind (stack a b) (stack b a) (swapP p q).
Proof.
rewrite /swapP; split=> [||f|||] /=.
- by rewrite tr_block_mx !trmx0 !trmx1 mulmx_block !(mulmx0, mul0mx, addr0, add0r, mulmx1, mul1mx) -scalar_mx_block.
- by rewrite tr_block_mx !trmx0 !trmx1 mulmx_block !(mulmx0, mul0mx, addr0, add0r, mulmx1, mul1mx) -scalar_mx_block.
- by rewrite mul_block_col !mul0mx addr0 add0r !mul1mx.
- by rewrite mul_block_col !mul0mx addr0 add0r !mul1mx.
- by rewrite mul_block_col !mul0mx addr0 add0r !mul1mx.
- by rewrite tr_block_mx !trmx0 !trmx1 !mulmx_block !(mulmx0, mul0mx, addr0, add0r, mulmx1, mul1mx).
Qed.
Definition swap3P n p q : 'M[F]_(n + q + p, n + p + q) :=
  block_mx (block_mx 1%:M 0 0 0) (col_mx 0 1%:M) (row_mx 0 1%:M) 0.
Lemma swap3P_tr n p q : (swap3P n p q)^T = swap3P n q p.
Proof. by rewrite /swap3P tr_block_mx tr_block_mx tr_col_mx tr_row_mx !trmx0 !trmx1. Qed.
Lemma swap3P_col n p q r (a : 'M[F]_(n, r)) (b : 'M_(p, r)) (c : 'M_(q, r)) :
  swap3P n p q *m col_mx (col_mx a b) c = col_mx (col_mx a c) b.
Proof.
rewrite /swap3P mul_block_col mul_block_col mul_col_mx mul_row_col add_col_mx.
by rewrite !mul0mx !mul1mx !addr0 !add0r.
Qed.
Lemma swap3P_row n p q r (a : 'M[F]_(r, n)) (b : 'M_(r, p)) (c : 'M_(r, q)) :
  row_mx (row_mx a b) c *m swap3P n q p = row_mx (row_mx a c) b.
Proof. by apply: trmx_inj; rewrite trmx_mul swap3P_tr !tr_row_mx swap3P_col. Qed.
Lemma swap3P_inv n p q : swap3P n q p *m swap3P n p q = 1%:M.
Proof.
have E3 u v w : (swap3P u v w : 'M[F]_(u + w + v, u + v + w)) =
  col_mx (col_mx (row_mx (row_mx 1%:M 0) 0) (row_mx (row_mx 0 0) 1%:M)) (row_mx (row_mx 0 1%:M) 0).
  by rewrite /swap3P /block_mx -[col_mx (row_mx (row_mx _ _) _) (row_mx _ _)]/(block_mx _ _ _ _) block_mxEh.
have E4 u v w : 1%:M =
  col_mx (col_mx (row_mx (row_mx 1%:M 0) 0) (row_mx (row_mx 0 1%:M) 0)) (row_mx (row_mx 0 0) 1%:M) :> 'M[F]_(u + v + w).
  rewrite -[col_mx (row_mx (row_mx _ _) _) (row_mx _ _)]/(block_mx _ _ _ _) block_mxEh col_mx0 row_mx0.
  by rewrite -[col_mx (row_mx 1%:M _) _]/(block_mx _ _ _ _) -scalar_mx_block -[RHS]/(block_mx _ _ _ _) -scalar_mx_block.
by rewrite [swap3P n p q]E3 swap3P_col -E4.
Qed.
Lemma same_stack_swap3 n p q (d : data F X n) (a : data F X p) (b : data F X q) :
  reind (stack (stack d a) b) (stack (stack d b) a) (swap3P n p q).
Proof.
split=> [||f|||] /=; rewrite ?swap3P_tr ?swap3P_inv ?swap3P_col //.
have E3 u v w (M1 : 'M[F]_u) (M2 : 'M[F]_v) (M3 : 'M[F]_w) : block_mx (block_mx M1 0 0 M2) 0 0 M3 =
  col_mx (col_mx (row_mx (row_mx M1 0) 0) (row_mx (row_mx 0 M2) 0)) (row_mx (row_mx 0 0) M3).
  by rewrite -[col_mx (row_mx (row_mx M1 0) 0) _]/(block_mx _ _ _ _) [in RHS]block_mxEh col_mx0 row_mx0.
by rewrite !E3 swap3P_col !mul_col_mx !swap3P_row.
Qed.
Lemma same_swap dd E o1 o2 :
  same_data (s_data (s_step (s_step (Summary dd E) (Cond o1)) (Cond o2)))
            (s_data (s_step (s_step (Summary dd E) (Cond o2)) (Cond o1))).
Proof.
case: dd => [[n d]|] /=; first by eexists; apply: same_stack_swap3.
by eexists; apply: same_stack_swap.
Qed.
Lemma foldl_cond_op dd E os : s_op (foldl (@s_step F X) (Summary dd E) [seq Cond o | o <- os]) = E.
Proof. by elim: os dd => [|o os IH] dd //=; rewrite IH. Qed.
Lemma same_fold es a b E : same_data a b ->
  same_data (s_data (foldl (@s_step F X) (Summary a E) es)) (s_data (foldl (@s_step F X) (Summary b E) es)) /\
  s_op (foldl (@s_step F X) (Summary a E) es) = s_op (foldl (@s_step F X) (Summary b E) es).
Proof.
elim: es a b E => [|e es IH] a b E //= H; have := same_step E e H.
by case: e => [o|D] /= H'; apply: IH.
Qed.
Lemma summary_eta (sm : summary F X) : Summary (s_data sm) (s_op sm) = sm. Proof. by case: sm. Qed.
Lemma same_perm os os' dd E : Permutation os os' ->
  same_data (s_data (foldl (@s_step F X) (Summary dd E) [seq Cond o | o <- os]))
            (s_data (foldl (@s_step F X) (Summary dd E) [seq Cond o | o <- os'])).
Proof.
move=> H; elim: H dd => {os os'} [|o os os' _ IH|o1 o2 os|os1 os2 os3 _ IH1 _ IH2] dd.
- exact: same_refl.
- exact: IH.
- exact: (same_fold [seq Cond o | o <- os] E (same_swap dd E o2 o1)).1.
- exact: same_trans (IH1 dd) (IH2 dd).
Qed.
Lemma same_unit a b E : same_data a b -> sgood g Sf So (Summary a E) -> spd g (Summary a E) -> spec_gram_unit g (Summary b E).
Proof.
case: a b => [[n d]|] [[n' d']|] //= [P R] [/= HE [HL HN]] PG; by have [U' _] := reind_inv HL R (posdef_unit PG).
Qed.
Lemma same_spec a b E x y : same_data a b -> sgood g Sf So (Summary a E) -> spd g (Summary a E) ->
  spec_mean g (Summary b E) x = spec_mean g (Summary a E) x /\ spec_cov g (Summary b E) x y = spec_cov g (Summary a E) x y.
Proof.
case: a b => [[n d]|] [[n' d']|] //= [P R] [/= HE [HL HN]] PG; have U := posdef_unit PG.
by rewrite /spec_mean /spec_cov /= (reind_mean HL R) ?(reind_cov HL R).
Qed.
End P.
