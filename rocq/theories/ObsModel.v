(** Model of [ConditionalGaussianProcess._preprocess_observations]
    ([randprocs/_gaussian_process/_conditional.py] 296-399): checks of the
    arguments, layout of the observations, noise. *)
From Coq Require Import List Arith Bool.
From Verif Require Import Base NdArray NdData.
Import ListNotations.

Section Obs.
Variable F : fops.

(** The argument [L].  Of a functional only the output shape and whether it is an
    [_EvaluationFunctional] matter here; of a function operator the output domain
    and codomain shapes. *)
Inductive larg :=
| LFunctional (out : shape) (is_eval : bool)
| LOperator (odom ocod : shape)
| LNone
| LOther.
(** The argument [b] after [asrandvar]: mean and covariance matrix (zero for a
    constant), or some other random variable. *)
Inductive barg :=
| BNormal (mean : nd F) (cov : nat -> nat -> F)
| BConstant (value : nd F)
| BOther.

(** [X.shape\[: X.ndim - len(input_domain_shape)\]] and the assertion after it
    ([linfunctls/_evaluation.py] 32-33).  If [X] has too few axes both sides of
    the assertion differ in length. *)
Definition batch_of (dom xs : shape) : result shape :=
  let batch := firstn (length xs - length dom) xs in
  if shape_eqb xs (batch ++ dom) then Ok batch else Err AssertionError.
(** Output shape of an evaluation functional ([linfunctls/_evaluation.py] 35-38) *)
Definition eval_shape (dom cod xs : shape) : result shape :=
  bind (batch_of dom xs) (fun batch => Ok (cod ++ batch)).
(** The measurement functional: output shape and whether it is an
    [_EvaluationFunctional] ([_conditional.py] 315-341).  [L.to_linfunctl(X)]
    ([linfuncops/_linfuncop.py] 93-105) is a [CompositeLinearFunctional]. *)
Definition functional_of (pin pout : shape) (X : option shape) (L : larg) : result (shape * bool) :=
  match L with
  | LFunctional out e => match X with Some _ => Err TypeError | None => Ok (out, e) end
  | LOperator odom ocod =>
      match X with
      | None => Err ValueError
      | Some xs => bind (eval_shape odom ocod xs) (fun out => Ok (out, false))
      end
  | LNone =>
      match X with
      | None => Err ValueError
      | Some xs => bind (eval_shape pin pout xs) (fun out => Ok (out, true))
      end
  | LOther => Err TypeError
  end.
(** [b.shape] *)
Definition b_shape (b : barg) : shape :=
  match b with BNormal m _ => nshape m | BConstant v => nshape v | BOther => [] end.
(** [_conditional.py] 345-357 *)
Definition check_noise (out : shape) (b : option barg) : result unit :=
  match b with
  | None => Ok tt
  | Some BOther => Err TypeError
  | Some b' => if shape_eqb (b_shape b') out then Ok tt else Err ValueError
  end.
(** [np.moveaxis(Y, -k + np.arange(k), np.arange(k))]: the last [k] axes first. *)
Definition move_last (k : nat) (a : nd F) : nd F :=
  let s := nshape a in
  let nb := length s - k in
  Nd (skipn nb s ++ firstn nb s) (fun i => nat_ a (skipn k i ++ firstn k i)).
(** [a.reshape(-1, order="C")] *)
Definition flatten (a : nd F) : nd F := Nd [size (nshape a)] (fun i => nat_ a (unravel (nshape a) (ravel [size (nshape a)] i))).
(** Checks and layout of the observations ([_conditional.py] 370-392). *)
Definition layout (pout out : shape) (is_eval : bool) (Y : nd F) : result (nd F) :=
  bind (if is_eval && (0 <? length pout)
        then if shape_eqb (skipn (length (nshape Y) - length pout) (nshape Y)) pout
             then Ok (move_last (length pout) Y) else Err ValueError
        else Ok Y) (fun Y' =>
  if shape_eqb (nshape Y') out then Ok (flatten Y') else Err ValueError).
(** Noise added to the predictive mean and the Gram matrix ([_conditional.py]
    394-396). *)
Definition add_noise (b : option barg) (m : nd F) (G : nat -> nat -> F) : nd F * (nat -> nat -> F) :=
  match b with
  | Some (BNormal mb cb) => (nd_map2 fadd m (flatten mb), fun i j => fadd (G i j) (cb i j))
  | Some (BConstant v) => (nd_map2 fadd m (flatten v), fun i j => fadd (G i j) f0)
  | _ => (m, G)
  end.
(** The whole of [_preprocess_observations]; [Lm] and [LkL] are the mean and the
    covariance matrix of [L(prior)]. *)
Record prepared := Prepared { pr_out : shape; pr_Y : nd F; pr_mean : nd F; pr_gram : nat -> nat -> F }.
Definition preprocess (pin pout : shape) (Y : nd F) (X : option shape) (L : larg) (b : option barg)
    (Lm : nd F) (LkL : nat -> nat -> F) : result prepared :=
  bind (functional_of pin pout X L) (fun '(out, is_eval) =>
  bind (check_noise out b) (fun _ =>
  bind (layout pout out is_eval Y) (fun Y' =>
  let '(m, G) := add_noise b (flatten Lm) LkL in
  Ok (Prepared out Y' m G)))).
End Obs.
Arguments BNormal {F}. Arguments BConstant {F}. Arguments BOther {F}.
Arguments preprocess {F}. Arguments b_shape {F}. Arguments flatten {F}.
Arguments pr_Y {F}. Arguments pr_mean {F}. Arguments pr_gram {F}. Arguments pr_out {F}.
