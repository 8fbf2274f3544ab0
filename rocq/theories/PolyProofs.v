From Coq Require Import List Arith Bool Lia Field_theory Field Ring.
From Verif Require Import Base PolyModel PolySpec.
Import ListNotations.

Section Generic.
Variable F : fops.
Hypothesis L : flaws F.

Notation "0" := (@f0 F).
Notation "1" := (@f1 F).
Infix "+" := (@fadd F).
Infix "*" := (@fmul F).
Infix "-" := (@fsub F).
Infix "/" := (@fdiv F).
Notation "- x" := (@fopp F x).

Lemma Fth : field_theory 0 1 (@fadd F) (@fmul F) (@fsub F) (@fopp F) (@fdiv F) (@finv F) eq.
Proof. exact (fl_field F L). Qed.
Add Field FField : Fth.

Lemma fnat_S_neq0 n : @fnat F (S n) <> 0.
Proof.
  intros H. rewrite <- fnat_iter in H. apply (fl_char0 F L) in H. discriminate.
Qed.

Lemma fpow_add (x : F) a b : fpow x (a + b)%nat = fpow x a * fpow x b.
Proof. induction a as [|a IH]; simpl; [ring|]. rewrite IH. ring. Qed.

(** ** power_sum *)
Lemma psf_shift cs x : forall i, power_sum_from i cs x = fpow x i * power_sum cs x.
Proof.
  unfold power_sum.
  induction cs as [|c cs IH]; intros i; simpl; [ring|].
  rewrite (IH (S i)), (IH 1%nat). simpl. ring.
Qed.

Lemma ps_nil (x : F) : power_sum [] x = 0.
Proof. reflexivity. Qed.

Lemma ps_cons c cs (x : F) : power_sum (c :: cs) x = c + x * power_sum cs x.
Proof. unfold power_sum at 1; simpl. rewrite psf_shift. simpl. ring. Qed.

Lemma ps_app cs ds (x : F) :
  power_sum (cs ++ ds) x = power_sum cs x + fpow x (length cs) * power_sum ds x.
Proof.
  induction cs as [|c cs IH]; simpl.
  - rewrite ps_nil. ring.
  - rewrite !ps_cons, IH. ring.
Qed.

Lemma ps_mkpoly cs (x : F) : power_sum (mkpoly cs) x = power_sum cs x.
Proof. destruct cs; simpl; [|reflexivity]. rewrite ps_cons, !ps_nil. ring. Qed.

Lemma ps_repeat0 n (x : F) : power_sum (repeat 0 n) x = 0.
Proof. induction n as [|n IH]; simpl; [reflexivity|]. rewrite ps_cons, IH. ring. Qed.

Lemma coefficient_nth (cs : list F) i : coefficient cs i = nth i cs 0.
Proof. revert i; induction cs as [|c cs IH]; intros [|i]; simpl; auto. Qed.

(** ** Horner *)
Lemma horner_seq (p : list F) (x : F) : forall n acc,
  (n <= length p)%nat ->
  fold_left (fun res k => res * x + pcoef p k) (rev (seq 0 n)) acc
  = acc * fpow x n + power_sum (firstn n p) x.
Proof.
  induction n as [|n IH]; intros acc Hn.
  - simpl. rewrite ps_nil. ring.
  - rewrite seq_S, rev_app_distr. cbn [rev app fold_left Nat.add].
    rewrite IH by lia.
    assert (E : firstn (S n) p = firstn n p ++ [nth n p 0]).
    { clear -Hn. revert p Hn; induction n as [|n IH]; intros [|c p] Hn; simpl in *; try lia; auto.
      rewrite <- IH by lia. destruct p; simpl; reflexivity || (simpl in Hn; lia). }
    rewrite E, ps_app, firstn_length, Nat.min_l by lia.
    rewrite ps_cons, ps_nil. unfold pcoef. simpl. ring.
Qed.

Lemma horner_correct (p : list F) (x : F) :
  p <> [] -> peval p x = power_sum p x.
Proof.
  intros Hp. unfold peval, pdegree.
  assert (Hl : (0 < length p)%nat) by (destruct p; [congruence|simpl; lia]).
  rewrite horner_seq by lia.
  remember (length p - 1)%nat as n eqn:En.
  assert (E : p = firstn n p ++ [nth n p 0]).
  { assert (Hn : length p = S n) by lia. clear -Hn.
    revert p Hn; induction n as [|n IH]; intros [|c p] Hn; simpl in *; try lia.
    - destruct p; simpl in *; [reflexivity|lia].
    - f_equal. apply IH. lia. }
  rewrite E at 3. rewrite ps_app, firstn_length, Nat.min_l by lia.
  rewrite ps_cons, ps_nil. unfold pcoef. ring.
Qed.

Lemma mkpoly_nonnil (cs : list F) : mkpoly cs <> [].
Proof. destruct cs; simpl; discriminate. Qed.

Lemma peval_mkpoly cs (x : F) : peval (mkpoly cs) x = power_sum cs x.
Proof. rewrite horner_correct by apply mkpoly_nonnil. apply ps_mkpoly. Qed.

(** ** Arithmetic *)
Lemma ps_map_opp cs (x : F) : power_sum (map fopp cs) x = - power_sum cs x.
Proof.
  induction cs as [|c cs IH]; simpl; [rewrite ps_nil; ring|].
  rewrite !ps_cons, IH. ring.
Qed.

Lemma ps_map_mul k cs (x : F) : power_sum (map (fmul k) cs) x = k * power_sum cs x.
Proof.
  induction cs as [|c cs IH]; simpl; [rewrite ps_nil; ring|].
  rewrite !ps_cons, IH. ring.
Qed.

Lemma zl_nil_l op (ys : list F) : zip_longest op [] ys = map (op 0) ys.
Proof. induction ys as [|y ys IH]; simpl; [reflexivity|]. f_equal; exact IH. Qed.

Lemma zl_nil_r op (xs : list F) : zip_longest op xs [] = map (fun x => op x 0) xs.
Proof. induction xs as [|y ys IH]; simpl; [reflexivity|]. now f_equal. Qed.

Lemma ps_zip_add : forall xs ys (x : F),
  power_sum (zip_longest fadd xs ys) x = power_sum xs x + power_sum ys x.
Proof.
  induction xs as [|a xs IH]; intros ys x.
  - rewrite zl_nil_l, ps_nil.
    induction ys as [|b ys IHy]; simpl; [rewrite !ps_nil; ring|].
    rewrite !ps_cons, IHy. ring.
  - destruct ys as [|b ys]; simpl.
    + rewrite !ps_cons, IH, ps_nil. ring.
    + rewrite !ps_cons, IH. ring.
Qed.

Lemma ps_zip_sub : forall xs ys (x : F),
  power_sum (zip_longest fsub xs ys) x = power_sum xs x - power_sum ys x.
Proof.
  induction xs as [|a xs IH]; intros ys x.
  - rewrite zl_nil_l, ps_nil.
    induction ys as [|b ys IHy]; simpl; [rewrite !ps_nil; ring|].
    rewrite !ps_cons, IHy. ring.
  - destruct ys as [|b ys]; simpl.
    + rewrite !ps_cons, IH, ps_nil. ring.
    + rewrite !ps_cons, IH. ring.
Qed.

Lemma length_zl op : forall xs ys : list F,
  length (zip_longest op xs ys) = Nat.max (length xs) (length ys).
Proof.
  induction xs as [|a xs IH]; intros ys.
  - rewrite zl_nil_l, map_length. reflexivity.
  - destruct ys as [|b ys]; simpl; rewrite IH; simpl; lia.
Qed.

Lemma length_mkpoly (cs : list F) : length (mkpoly cs) = Nat.max 1 (length cs).
Proof. destruct cs; simpl; lia. Qed.

Lemma nth_mkpoly (cs : list F) i : nth i (mkpoly cs) 0 = nth i cs 0.
Proof. destruct cs; [|reflexivity]. destruct i as [|[|i]]; reflexivity. Qed.

Lemma nth_zl op : op 0 0 = 0 -> forall (xs ys : list F) i,
  nth i (zip_longest op xs ys) 0 = op (nth i xs 0) (nth i ys 0).
Proof.
  intros H0. induction xs as [|a xs IH]; intros ys i.
  - rewrite zl_nil_l.
    replace (nth i [] 0) with 0 by (destruct i; reflexivity).
    rewrite <- (map_nth (op 0)), H0. reflexivity.
  - destruct ys as [|b ys]; destruct i as [|i]; simpl; auto.
    rewrite IH. destruct i; reflexivity.
Qed.

(** ** Product *)
Lemma fsum_app (l m : list F) : fsum (l ++ m) = fsum l + fsum m.
Proof. unfold fsum. induction l as [|a l IH]; simpl; [ring|]. rewrite IH. ring. Qed.

Lemma fsum_ext (f g : nat -> F) l :
  (forall i, In i l -> f i = g i) -> fsum (map f l) = fsum (map g l).
Proof.
  intros H. induction l as [|a l IH]; simpl; [reflexivity|].
  rewrite (H a) by (left; reflexivity). rewrite IH; [reflexivity|].
  intros i Hi; apply H; right; exact Hi.
Qed.

Lemma fsum_zero (f : nat -> F) l :
  (forall i, In i l -> f i = 0) -> fsum (map f l) = 0.
Proof.
  intros H. induction l as [|a l IH]; simpl; [reflexivity|].
  rewrite (H a) by (left; reflexivity). rewrite IH; [ring|].
  intros i Hi; apply H; right; exact Hi.
Qed.

Lemma nth_beyond (p : list F) i : (length p <= i)%nat -> nth i p 0 = 0.
Proof. apply nth_overflow. Qed.

Lemma conv_range_full (p q : list F) k : p <> [] -> q <> [] ->
  fsum (map (fun i => pcoef p i * pcoef q (k - i)%nat)
         (range (k - pdegree q) (Nat.min k (pdegree p) + 1)))
  = fsum (map (fun i => pcoef p i * pcoef q (k - i)%nat) (range 0%nat (k + 1)%nat)).
Proof.
  intros Hp Hq. unfold range, pdegree, pcoef.
  assert (Lp : (0 < length p)%nat) by (destruct p; [congruence|simpl; lia]).
  assert (Lq : (0 < length q)%nat) by (destruct q; [congruence|simpl; lia]).
  set (a := (k - (length q - 1))%nat).
  set (b := (Nat.min k (length p - 1) + 1)%nat).
  rewrite Nat.sub_0_r.
  destruct (le_lt_dec b a) as [Hab|Hab].
  - replace (b - a)%nat with O by lia. simpl.
    symmetry. apply fsum_zero. intros i Hi. apply in_seq in Hi.
    destruct (le_lt_dec (length p) i) as [H|H].
    + rewrite (nth_beyond p) by lia. ring.
    + rewrite (nth_beyond q) by (subst a b; lia). ring.
  - assert (E : seq 0 (k + 1) = seq 0 a ++ seq a (b - a) ++ seq b (k + 1 - b)).
    { rewrite app_assoc. rewrite <- seq_app.
      replace (a + (b - a))%nat with b by lia.
      rewrite <- seq_app. f_equal. subst b; lia. }
    rewrite E, !map_app, !fsum_app.
    rewrite (fsum_zero _ (seq 0 a)).
    2:{ intros i Hi. apply in_seq in Hi. rewrite (nth_beyond q) by (subst a; lia). ring. }
    rewrite (fsum_zero _ (seq b (k + 1 - b))).
    2:{ intros i Hi. apply in_seq in Hi. rewrite (nth_beyond p) by (subst b; lia). ring. }
    ring.
Qed.

Lemma convolution_upto_sum (a b : nat -> F) k : forall i,
  convolution_upto i a b k = fsum (map (fun j => a j * b (k - j)%nat) (seq 0 (S i))).
Proof.
  induction i as [|i IH].
  - simpl. rewrite Nat.sub_0_r. ring.
  - cbn [convolution_upto]. rewrite IH.
    rewrite (seq_S (S i) 0), map_app, fsum_app. cbn [map fsum fold_right Nat.add].
    ring.
Qed.

Lemma length_pmul (p q : list F) : p <> [] -> q <> [] ->
  length (pmul p q) = (length p + length q - 1)%nat.
Proof.
  intros Hp Hq. unfold pmul. rewrite length_mkpoly, map_length.
  unfold range. rewrite seq_length. unfold pdegree.
  destruct p; [congruence|]. destruct q; [congruence|]. cbn [length]. lia.
Qed.

Lemma pmul_coef (p q : list F) : p <> [] -> q <> [] -> forall k,
  coefficient (pmul p q) k = convolution (coefficient p) (coefficient q) k.
Proof.
  intros Hp Hq k. rewrite coefficient_nth.
  unfold convolution. rewrite convolution_upto_sum.
  rewrite (fsum_ext _ (fun i => pcoef p i * pcoef q (k - i)%nat)).
  2:{ intros i _. rewrite !coefficient_nth. reflexivity. }
  unfold pmul. rewrite nth_mkpoly.
  destruct (lt_dec k (pdegree p + pdegree q + 1)) as [Hk|Hk].
  - set (f := fun k : nat => fsum _).
    rewrite (nth_indep _ 0 (f O)).
    2:{ rewrite map_length. unfold range. rewrite seq_length. lia. }
    rewrite map_nth. unfold range. rewrite seq_nth by lia. simpl (0 + k)%nat.
    subst f. cbv beta. rewrite conv_range_full by assumption.
    unfold range. rewrite Nat.sub_0_r. replace (k + 1)%nat with (S k) by lia. reflexivity.
  - rewrite nth_overflow.
    2:{ rewrite map_length. unfold range. rewrite seq_length. lia. }
    symmetry. apply fsum_zero. intros i Hi. apply in_seq in Hi.
    unfold pcoef. unfold pdegree in Hk.
    destruct (le_lt_dec (length p) i) as [H|H].
    + rewrite (nth_beyond p) by lia. ring.
    + rewrite (nth_beyond q) by lia. ring.
Qed.

(** power_sum as a finite sum of coefficient terms, with any long-enough bound *)
Lemma ps_as_sum (cs : list F) (x : F) : forall n, (length cs <= n)%nat ->
  power_sum cs x = fsum (map (fun i => nth i cs 0 * fpow x i) (seq 0 n)).
Proof.
  induction cs as [|c cs IH]; intros n Hn.
  - rewrite ps_nil. symmetry. apply fsum_zero. intros [|i] _; simpl; ring.
  - destruct n as [|n]; [simpl in Hn; lia|].
    rewrite ps_cons, (IH n) by (simpl in Hn; lia).
    cbn [seq map fsum fold_right nth fpow]. fold (@fsum F).
    rewrite <- seq_shift, map_map. cbn [nth fpow].
    assert (E : forall l, x * fsum (map (fun i => nth i cs 0 * fpow x i) l)
                = fsum (map (fun i => nth i cs 0 * (x * fpow x i)) l)).
    { induction l as [|a l IHl]; simpl; [ring|]. rewrite <- IHl. ring. }
    rewrite E. fold (fsum (map (fun i => nth i cs 0 * (x * fpow x i)) (seq 0 n))).
    ring.
Qed.

Lemma fpow_mul_sub (x : F) k i : (i <= k)%nat -> fpow x i * fpow x (k - i)%nat = fpow x k.
Proof. intros H. rewrite <- fpow_add. f_equal. lia. Qed.

Lemma ps_ext (p q : list F) : (forall i, nth i p 0 = nth i q 0) ->
  forall x, power_sum p x = power_sum q x.
Proof.
  intros H x. rewrite (ps_as_sum p x (Nat.max (length p) (length q))) by lia.
  rewrite (ps_as_sum q x (Nat.max (length p) (length q))) by lia.
  apply fsum_ext. intros i _. rewrite H. reflexivity.
Qed.

Fixpoint mulrec (p q : list F) : list F :=
  match p with
  | [] => []
  | a :: p' => zip_longest fadd (map (fmul a) q) (0 :: mulrec p' q)
  end.

Lemma ps_mulrec p q x : power_sum (mulrec p q) x = power_sum p x * power_sum q x.
Proof.
  induction p as [|a p IH]; simpl.
  - rewrite !ps_nil. ring.
  - rewrite ps_zip_add, ps_map_mul, !ps_cons, IH. ring.
Qed.

Lemma nth_map_mul (a : F) q i : nth i (map (fmul a) q) 0 = a * nth i q 0.
Proof.
  replace 0 with (a * 0) at 1 by ring. apply map_nth.
Qed.

Lemma mulrec_coef p q k :
  nth k (mulrec p q) 0 = fsum (map (fun i => nth i p 0 * nth (k - i) q 0) (seq 0 (S k))).
Proof.
  revert k. induction p as [|a p IH]; intros k.
  - cbn [mulrec]. replace (nth k [] 0) with 0 by (destruct k; reflexivity).
    symmetry. apply fsum_zero. intros [|i] _; simpl; ring.
  - cbn [mulrec]. rewrite nth_zl by ring. rewrite nth_map_mul.
    cbn [seq map fsum fold_right nth]. rewrite Nat.sub_0_r. f_equal.
    destruct k as [|k].
    + reflexivity.
    + cbn [nth]. rewrite IH. rewrite <- (seq_shift (S k) 0), map_map.
      apply fsum_ext. intros i _. reflexivity.
Qed.

Lemma ps_pmul p q x : p <> [] -> q <> [] ->
  power_sum (pmul p q) x = power_sum p x * power_sum q x.
Proof.
  intros Hp Hq. rewrite <- ps_mulrec. apply ps_ext. intros i.
  rewrite <- coefficient_nth, (pmul_coef p q Hp Hq).
  unfold convolution. rewrite convolution_upto_sum, mulrec_coef.
  apply fsum_ext. intros j _. rewrite !coefficient_nth. reflexivity.
Qed.

(** ** Evaluation homomorphisms on objects *)
Definition wf (p : list F) := p <> [].

Lemma wf_mkpoly cs : wf (mkpoly cs). Proof. apply mkpoly_nonnil. Qed.

Lemma eval_padd p q x : wf p -> wf q -> peval (padd p q) x = peval p x + peval q x.
Proof. intros Hp Hq. unfold padd. rewrite peval_mkpoly, !horner_correct by assumption. apply ps_zip_add. Qed.

Lemma eval_psub p q x : wf p -> wf q -> peval (psub p q) x = peval p x - peval q x.
Proof. intros Hp Hq. unfold psub. rewrite peval_mkpoly, !horner_correct by assumption. apply ps_zip_sub. Qed.

Lemma eval_pneg p x : wf p -> peval (pneg p) x = - peval p x.
Proof. intros Hp. unfold pneg. rewrite peval_mkpoly, horner_correct by assumption. apply ps_map_opp. Qed.

Lemma eval_pscale c p x : wf p -> peval (pscale c p) x = c * peval p x.
Proof. intros Hp. unfold pscale. rewrite peval_mkpoly, horner_correct by assumption. apply ps_map_mul. Qed.

Lemma eval_padd_const p c x : wf p -> peval (padd_const p c) x = peval p x + c.
Proof.
  intros Hp. unfold padd_const. rewrite peval_mkpoly, horner_correct by assumption.
  destruct p as [|a p]; [congruence|]. simpl. rewrite !ps_cons. unfold pcoef; simpl. ring.
Qed.

Lemma wf_pmul p q : wf (pmul p q). Proof. apply wf_mkpoly. Qed.

Lemma eval_pmul p q x : wf p -> wf q -> peval (pmul p q) x = peval p x * peval q x.
Proof.
  intros Hp Hq. rewrite !horner_correct; try assumption; [|apply wf_pmul].
  apply ps_pmul; assumption.
Qed.

Lemma eval_pshift p m x : wf p -> peval (pshift p m) x = peval p x * monomial_eval m x.
Proof.
  intros Hp. unfold pshift, monomial_eval.
  rewrite peval_mkpoly, horner_correct by assumption.
  rewrite ps_app, ps_repeat0, repeat_length. ring.
Qed.

(** ** Calculus on coefficients *)
Lemma nth_enum_mul (cs : list F) : forall k i,
  nth i (enum_mul k cs) 0 = nth i cs 0 * fnat (k + i)%nat.
Proof.
  induction cs as [|c cs IH]; intros k i; simpl.
  - destruct i; ring.
  - destruct i as [|i].
    + rewrite Nat.add_0_r. reflexivity.
    + rewrite IH. do 2 f_equal. lia.
Qed.

Lemma nth_enum_div (cs : list F) : forall k i,
  nth i (enum_div k cs) 0 = nth i cs 0 / fnat (k + i + 1)%nat.
Proof.
  induction cs as [|c cs IH]; intros k i; simpl.
  - destruct i as [|i]; field; rewrite Nat.add_1_r; apply fnat_S_neq0.
  - destruct i as [|i].
    + rewrite Nat.add_0_r. reflexivity.
    + rewrite IH. do 2 f_equal. lia.
Qed.

Lemma length_enum_mul (cs : list F) k : length (enum_mul k cs) = length cs.
Proof. revert k; induction cs; intros k; simpl; auto. Qed.
Lemma length_enum_div (cs : list F) k : length (enum_div k cs) = length cs.
Proof. revert k; induction cs; intros k; simpl; auto. Qed.

Lemma pdiff_coef p i : coefficient (pdiff p) i = coefficient p (S i) * fnat (S i).
Proof.
  rewrite !coefficient_nth. unfold pdiff. rewrite nth_mkpoly, nth_enum_mul.
  destruct p as [|c p]; simpl; [destruct i; ring|reflexivity].
Qed.

Lemma pintegrate_coef p i :
  coefficient (pintegrate p) i =
  match i with O => 0 | S j => coefficient p j / fnat (S j) end.
Proof.
  rewrite !coefficient_nth. unfold pintegrate. cbn [mkpoly].
  destruct i as [|j]; [reflexivity|]. cbn [nth]. rewrite nth_enum_div, <- coefficient_nth.
  do 2 f_equal. lia.
Qed.

Lemma enum_mul_div (cs : list F) : forall k, enum_mul (S k) (enum_div k cs) = cs.
Proof.
  induction cs as [|c cs IH]; intros k; simpl; [reflexivity|].
  f_equal; [|apply IH].
  replace (k + 1)%nat with (S k) by lia. simpl.
  field. exact (fnat_S_neq0 k).
Qed.

Lemma pdiff_pintegrate p : wf p -> pdiff (pintegrate p) = p.
Proof.
  intros Hp. unfold pdiff, pintegrate. cbn [mkpoly tl].
  rewrite enum_mul_div. destruct p; [congruence|reflexivity].
Qed.

Lemma eval_pintegrate_0 p : peval (pintegrate p) 0 = 0.
Proof. unfold pintegrate. rewrite peval_mkpoly, ps_cons. ring. Qed.

(** ** Degrees *)
Lemma degree_padd p q : wf p -> wf q -> pdegree (padd p q) = Nat.max (pdegree p) (pdegree q).
Proof.
  intros Hp Hq. unfold padd, pdegree. rewrite length_mkpoly, length_zl.
  destruct p; [congruence|]; destruct q; [congruence|]; cbn [length]; lia.
Qed.
Lemma degree_psub p q : wf p -> wf q -> pdegree (psub p q) = Nat.max (pdegree p) (pdegree q).
Proof.
  intros Hp Hq. unfold psub, pdegree. rewrite length_mkpoly, length_zl.
  destruct p; [congruence|]; destruct q; [congruence|]; cbn [length]; lia.
Qed.
Lemma degree_pneg p : wf p -> pdegree (pneg p) = pdegree p.
Proof. intros Hp. unfold pneg, pdegree. rewrite length_mkpoly, map_length. destruct p; [congruence|]; cbn [length]; lia. Qed.
Lemma degree_pscale c p : wf p -> pdegree (pscale c p) = pdegree p.
Proof. intros Hp. unfold pscale, pdegree. rewrite length_mkpoly, map_length. destruct p; [congruence|]; cbn [length]; lia. Qed.
Lemma degree_padd_const c p : wf p -> pdegree (padd_const p c) = pdegree p.
Proof. intros Hp. unfold padd_const, pdegree. destruct p; simpl; [congruence|lia]. Qed.
Lemma degree_pmul p q : wf p -> wf q -> pdegree (pmul p q) = (pdegree p + pdegree q)%nat.
Proof.
  intros Hp Hq. unfold pdegree at 1. rewrite length_pmul by assumption.
  unfold pdegree. destruct p; [congruence|]; destruct q; [congruence|]; cbn [length]; lia.
Qed.
Lemma degree_pshift p m : wf p -> pdegree (pshift p m) = (pdegree p + m)%nat.
Proof.
  intros Hp. unfold pshift, pdegree. rewrite length_mkpoly, app_length, repeat_length.
  destruct p; [congruence|cbn [length tl]; lia].
Qed.
Lemma degree_pdiff p : wf p -> pdegree (pdiff p) = (pdegree p - 1)%nat.
Proof.
  intros Hp. unfold pdiff, pdegree. rewrite length_mkpoly, length_enum_mul.
  destruct p; [congruence|cbn [length tl]; lia].
Qed.
Lemma degree_pintegrate p : wf p -> pdegree (pintegrate p) = S (pdegree p).
Proof.
  intros Hp. unfold pintegrate, pdegree. rewrite length_mkpoly. cbn [length]. rewrite length_enum_div.
  destruct p; [congruence|cbn [length tl]; lia].
Qed.

(** ** Monomial division *)
Lemma existsb_nonzero_false (l : list F) :
  existsb (fun c => negb (feqb c 0)) l = false <-> (forall c, In c l -> c = 0).
Proof.
  split.
  - intros H c Hc. destruct (feqb c 0) eqn:E; [apply (fl_eqb F L); exact E|].
    exfalso. assert (T : existsb (fun c => negb (feqb c 0)) l = true).
    { apply existsb_exists. exists c. rewrite E. auto. }
    congruence.
  - intros H. destruct (existsb _ l) eqn:E; [|reflexivity].
    apply existsb_exists in E as [c [Hc Hn]]. rewrite (H c Hc) in Hn.
    assert (T : feqb 0 0 = true) by (apply (fl_eqb F L); reflexivity).
    rewrite T in Hn. discriminate.
Qed.

Lemma firstn_all0_repeat (p : list F) m : (m <= length p)%nat ->
  (forall c, In c (firstn m p) -> c = 0) -> firstn m p = repeat 0 m.
Proof.
  revert p; induction m as [|m IH]; intros [|c p] Hm H; simpl in *; try lia; auto.
  f_equal; [apply H; left; reflexivity|]. apply IH; [lia|].
  intros d Hd; apply H; right; exact Hd.
Qed.

Lemma floordiv_ok p m q : wf p ->
  pfloordiv_monomial p m = Ok q -> pshift q m = p /\ wf q.
Proof.
  intros Hp. unfold pfloordiv_monomial.
  destruct (Nat.leb_spec m (pdegree p)) as [Hm|Hm]; simpl; [|discriminate].
  destruct (existsb _ _) eqn:E; [discriminate|].
  intros [= <-]. rewrite existsb_nonzero_false in E.
  assert (Hl : (m < length p)%nat) by (unfold pdegree in Hm; destruct p; [congruence|simpl in *; lia]).
  split; [|apply wf_mkpoly].
  assert (Hs : skipn m p <> []).
  { intros Hs. apply (f_equal (@length F)) in Hs. rewrite skipn_length in Hs. simpl in Hs. lia. }
  unfold pshift.
  assert (Hmk : forall l : list F, l <> [] -> mkpoly l = l) by (intros [|]; [congruence|reflexivity]).
  rewrite (Hmk (skipn m p) Hs).
  rewrite Hmk by (destruct m; simpl; [assumption|discriminate]).
  rewrite <- (firstn_all0_repeat p m) by (lia || assumption).
  apply firstn_skipn.
Qed.

Lemma in_firstn_nth (p : list F) m c :
  In c (firstn m p) <-> exists i, (i < m)%nat /\ (i < length p)%nat /\ nth i p 0 = c.
Proof.
  revert p; induction m as [|m IH]; intros [|a p]; simpl.
  - split; [tauto|intros [i [H _]]; lia].
  - split; [tauto|intros [i [H _]]; lia].
  - split; [tauto|intros [i [_ [H _]]]; lia].
  - split.
    + intros [<-|H]; [exists O; repeat split; lia|].
      apply IH in H as [i [H1 [H2 H3]]]. exists (S i). repeat split; [lia|lia|exact H3].
    + intros [[|i] [H1 [H2 H3]]]; [left; exact H3|right].
      apply IH. exists i. repeat split; [lia|lia|exact H3].
Qed.

Lemma floordiv_err p m : wf p ->
  (exists e, pfloordiv_monomial p m = Err e) <->
  ((pdegree p < m)%nat \/ exists i, (i < m)%nat /\ coefficient p i <> 0).
Proof.
  intros Hp. unfold pfloordiv_monomial.
  destruct (Nat.leb_spec m (pdegree p)) as [Hm|Hm]; simpl.
  2:{ split; [intros _; left; exact Hm|intros _; eexists; reflexivity]. }
  destruct (existsb _ _) eqn:E.
  - split; [intros _; right|intros _; eexists; reflexivity].
    apply existsb_exists in E as [c [Hc Hn]].
    apply in_firstn_nth in Hc as [i [H1 [H2 H3]]]. exists i. split; [exact H1|].
    rewrite coefficient_nth, H3. intros ->.
    assert (T : feqb 0 0 = true) by (apply (fl_eqb F L); reflexivity).
    rewrite T in Hn. discriminate.
  - split; [intros [e He]; discriminate|].
    rewrite existsb_nonzero_false in E.
    intros [H|[i [Hi Hn]]]; [lia|]. exfalso. apply Hn. rewrite coefficient_nth.
    destruct (le_lt_dec (length p) i) as [H|H]; [apply nth_beyond; exact H|].
    apply E. apply in_firstn_nth. exists i. auto.
Qed.

Lemma floordiv_err_class (p : list F) m e : pfloordiv_monomial p m = Err e -> e = ValueError.
Proof.
  unfold pfloordiv_monomial.
  destruct (negb _); [congruence|]. destruct (existsb _ _); congruence.
Qed.

(** ** Division with remainder *)
Definition lead (d : list F) : F := last d 0.

Lemma last_nth (d : list F) : last d 0 = nth (length d - 1) d 0.
Proof.
  induction d as [|a d IH]; [reflexivity|].
  destruct d as [|b d]; [reflexivity|].
  change (last (a :: b :: d) 0) with (last (b :: d) 0). rewrite IH.
  simpl. rewrite Nat.sub_0_r. reflexivity.
Qed.

Lemma nth_repeat0_app n (l : list F) i :
  nth i (repeat 0 n ++ l) 0 = if (i <? n)%nat then 0 else nth (i - n) l 0.
Proof.
  destruct (Nat.ltb_spec i n) as [H|H].
  - rewrite app_nth1 by (rewrite repeat_length; exact H). apply nth_repeat.
  - rewrite app_nth2 by (rewrite repeat_length; exact H). rewrite repeat_length. reflexivity.
Qed.

Lemma step_coef d c s rem i :
  nth i (psub rem (pshift (pscale c d) s)) 0 =
  nth i rem 0 - (if (i <? s)%nat then 0 else c * nth (i - s) d 0).
Proof.
  unfold psub. rewrite nth_mkpoly, nth_zl by ring.
  f_equal. unfold pshift. rewrite nth_mkpoly, nth_repeat0_app.
  destruct (i <? s)%nat; [reflexivity|].
  unfold pscale. rewrite nth_mkpoly, nth_map_mul. reflexivity.
Qed.

(** Loop invariant: after processing indices n+m-1 .. m'.. the dividend is
    recovered and the processed coefficients of the remainder vanish. *)
Definition dm_inv (p d : list F) (top : nat) (st : list F * list F) : Prop :=
  let '(qc, rem) := st in
  wf rem /\ length rem = length p /\
  (forall i, (top <= i)%nat -> nth i rem 0 = 0) /\
  (forall x, power_sum p x =
     fpow x (top - pdegree d) * power_sum (rev qc) x * power_sum d x + power_sum rem x).

Lemma rev_seq_S a n : rev (seq a (S n)) = (a + n)%nat :: rev (seq a n).
Proof. rewrite seq_S, rev_app_distr. reflexivity. Qed.

Lemma dm_loop p d : wf p -> wf d -> lead d <> 0 ->
  forall n st, (pdegree d + n <= pdegree p + 1)%nat ->
  dm_inv p d (pdegree d + n) st ->
  exists st', fold_left (divmod_step d) (rev (seq (pdegree d) n)) (Ok st) = Ok st'
    /\ dm_inv p d (pdegree d) st'
    /\ length (fst st') = (length (fst st) + n)%nat.
Proof.
  intros Hp Hd Hlead.
  induction n as [|n IH]; intros st Hn Hinv.
  - exists st. simpl. rewrite Nat.add_0_r in *. auto.
  - rewrite rev_seq_S. cbn [fold_left].
    destruct st as [qc rem]. unfold divmod_step at 2. cbn [bind].
    rewrite last_nth in Hlead || (unfold lead in Hlead; rewrite last_nth in Hlead).
    destruct (feqb _ 0) eqn:E.
    { apply (fl_eqb F L) in E. contradiction. }
    set (dl := nth (length d - 1) d 0) in *.
    set (k := (pdegree d + n)%nat) in *.
    set (c := pcoef rem k / dl).
    replace (k - pdegree d)%nat with n by (subst k; lia).
    set (st1 := (qc ++ [c], psub rem (pshift (pscale c d) n))).
    destruct Hinv as [Hwf [Hlen [Hzero Heq]]].
    assert (Ld : length d = S (pdegree d)) by (unfold pdegree; destruct d; [congruence|simpl; lia]).
    assert (Lp : length p = S (pdegree p)) by (unfold pdegree; destruct p; [congruence|simpl; lia]).
    assert (Hinv1 : dm_inv p d (pdegree d + n) st1).
    { unfold dm_inv, st1. split; [apply wf_mkpoly|]. split.
      { unfold psub. rewrite length_mkpoly, length_zl. unfold pshift.
        rewrite length_mkpoly, app_length, repeat_length. unfold pscale.
        rewrite length_mkpoly, map_length. lia. }
      split.
      - intros i Hi. rewrite step_coef.
        destruct (Nat.ltb_spec i n) as [H|H]; [lia|].
        destruct (Nat.eq_dec i k) as [->|Hne].
        + replace (k - n)%nat with (length d - 1)%nat by lia. fold dl.
          unfold c, pcoef. field. exact Hlead.
        + rewrite Hzero by lia. rewrite (nth_beyond d) by lia. ring.
      - intros x. rewrite Heq. rewrite rev_app_distr. cbn [rev app].
        unfold psub, pshift, pscale. rewrite ps_mkpoly, ps_zip_sub, ps_mkpoly, ps_app, ps_mkpoly.
        rewrite ps_repeat0, repeat_length, ps_map_mul, ps_cons.
        replace (pdegree d + S n - pdegree d)%nat with (S n) by lia.
        replace (pdegree d + n - pdegree d)%nat with n by lia.
        simpl. ring. }
    destruct (IH st1) as [st' [E1 [E2 E3]]]; [lia|exact Hinv1|].
    exists st'. split; [exact E1|]. split; [exact E2|].
    rewrite E3. unfold st1. simpl. rewrite app_length. simpl. lia.
Qed.

Lemma length_wf (p : list F) : wf p -> length p = S (pdegree p).
Proof. intros H. unfold pdegree. destruct p; [congruence|simpl; lia]. Qed.

Lemma pdivmod_ok p d : wf p -> wf d -> (lead d <> 0 \/ (pdegree p < pdegree d)%nat) ->
  exists q r, pdivmod p d = Ok (q, r)
    /\ wf q /\ wf r
    /\ (forall x, peval p x = peval q x * peval d x + peval r x)
    /\ (forall i, (pdegree d <= i)%nat -> coefficient r i = 0)
    /\ pdegree r = pdegree p
    /\ pdegree q = (pdegree p - pdegree d)%nat.
Proof.
  intros Hp Hd Hc. unfold pdivmod, range.
  destruct (lt_dec (pdegree p) (pdegree d)) as [Hlt|Hge].
  - replace (pdegree p + 1 - pdegree d)%nat with O by lia. simpl.
    exists [0], p. split; [reflexivity|]. split; [discriminate|]. split; [exact Hp|].
    split.
    { intros x. rewrite (horner_correct [0]) by discriminate.
      rewrite ps_cons, ps_nil. ring. }
    split.
    { intros i Hi. rewrite coefficient_nth. apply nth_beyond. rewrite (length_wf p Hp). lia. }
    split; [reflexivity|]. change (pdegree [0]) with O. lia.
  - assert (Hl : lead d <> 0) by (destruct Hc; [assumption|lia]).
    destruct (dm_loop p d Hp Hd Hl (pdegree p + 1 - pdegree d) ([], p)) as [[qc rem] [E [Hinv Hlq]]].
    { lia. }
    { unfold dm_inv. split; [exact Hp|]. split; [reflexivity|]. split.
      - intros i Hi. apply nth_beyond. rewrite (length_wf p Hp). lia.
      - intros x. simpl. rewrite ps_nil. ring. }
    unfold poly in E |- *. rewrite E. cbn [bind].
    destruct Hinv as [Hwf [Hlen [Hzero Heq]]].
    exists (mkpoly (rev qc)), rem. split; [reflexivity|].
    split; [apply wf_mkpoly|]. split; [exact Hwf|]. split.
    { intros x. rewrite peval_mkpoly, !horner_correct by assumption.
      rewrite Heq, Nat.sub_diag. simpl. ring. }
    split.
    { intros i Hi. rewrite coefficient_nth. apply Hzero; exact Hi. }
    split; [unfold pdegree; rewrite Hlen; reflexivity|].
    unfold pdegree at 1. rewrite length_mkpoly, rev_length. simpl in Hlq. rewrite Hlq. lia.
Qed.

Lemma divmod_err_fold (d : list F) l e : fold_left (divmod_step d) l (Err e) = Err e.
Proof. induction l as [|a l IH]; [reflexivity|]. simpl. exact IH. Qed.

Lemma pdivmod_err p d : wf p -> wf d -> lead d = 0 -> (pdegree d <= pdegree p)%nat ->
  pdivmod p d = Err ZeroDivisionError.
Proof.
  intros Hp Hd Hl Hge. unfold pdivmod, range.
  replace (pdegree p + 1 - pdegree d)%nat with (S (pdegree p - pdegree d)) by lia.
  rewrite rev_seq_S. cbn [fold_left]. unfold divmod_step at 2. cbn [bind].
  unfold lead in Hl. rewrite last_nth in Hl. rewrite Hl.
  assert (T : feqb 0 0 = true) by (apply (fl_eqb F L); reflexivity).
  rewrite T, divmod_err_fold. reflexivity.
Qed.


End Generic.
