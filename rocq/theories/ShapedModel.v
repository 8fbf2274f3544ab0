(** Model of functions given by arrays and of stacked functions:
    [functions/_affine.py], [functions/_stack.py], the call protocol of
    [functions/_jax.py] and the selection of outputs in
    [functions/linfuncops/_registry.py].

    Arrays are [NdData.nd]; dtypes are not modelled (float arithmetic is that of the
    carrier).  JAX raises TypeError where NumPy raises ValueError for operands of
    [*], [+] and [@] that do not fit; both are ValueError here. *)
From Coq Require Import List Arith ZArith Bool.
From Verif Require Import Base NdArray NdData BlockModel CovModel CrossModel.
Import ListNotations.
Local Open Scope nat_scope.

Section Shaped.
Context {F : fops}.

(** ** NumPy primitives *)
(** [a * b], [a + b] with broadcasting *)
Definition nd_bin (op : F -> F -> F) (a b : nd F) : result (nd F) :=
  bind (broadcast_shapes (nshape a) (nshape b)) (fun s =>
  Ok (Nd s (fun i => op (nat_ a (operand_index (nshape a) i)) (nat_ b (operand_index (nshape b) i))))).
(** [(A @ x\[..., None\])\[..., 0\]] for a 2-D array [A].  If [x] has no axis, [x\[..., None\]]
    is a vector of one entry, the product is a vector and [\[..., 0\]] its first entry (what
    JAX does if there is none is not modelled). *)
Definition matvec_last (A x : nd F) : result (nd F) :=
  match nshape A with
  | [m; n] =>
      match rev (nshape x) with
      | [] => if n =? 1 then
                if m =? 0 then Err Unmodelled
                else Ok (Nd [] (fun _ => fsum (map (fun j => fmul (nat_ A [0; j]) (nat_ x [])) (seq 0 n))))
              else Err ValueError
      | k :: rb => if k =? n then
                     Ok (Nd (rev rb ++ [m]) (fun l =>
                       fsum (map (fun j => fmul (nat_ A [last l 0; j]) (nat_ x (removelast l ++ [j]))) (seq 0 n))))
                   else Err ValueError
      end
  | _ => Err Unmodelled
  end.
(** Axis [z] of an array with [d] axes after the insertion ([np.stack]); AxisError is a
    ValueError. *)
Definition norm_axis (z : Z) (d : nat) : result nat :=
  if ((- Z.of_nat d - 1 <=? z) && (z <=? Z.of_nat d))%Z
  then Ok (Z.to_nat (if (z <? 0)%Z then z + Z.of_nat d + 1 else z)%Z)
  else Err ValueError.
Definition insert_at (a k : nat) (l : list nat) : list nat := firstn a l ++ k :: skipn a l.
Definition remove_at (a : nat) (l : list nat) : list nat := firstn a l ++ skipn (S a) l.
(** [np.stack]: ValueError for no arrays, for different shapes and for a wrong axis. *)
Definition np_stack (l : list (nd F)) (z : Z) : result (nd F) :=
  match l with
  | [] => Err ValueError
  | e :: _ =>
      if forallb (fun a => shape_eqb (nshape a) (nshape e)) l then
        bind (norm_axis z (length (nshape e))) (fun a =>
        Ok (Nd (insert_at a (length l) (nshape e)) (fun i => nat_ (nth (nth a i 0) l e) (remove_at a i))))
      else Err ValueError
  end.
(** [s\[:k\]] for a tuple *)
Definition py_prefix {A} (s : list A) (k : Z) : list A :=
  firstn (if (k <? 0)%Z then length s - Z.to_nat (- k) else Z.to_nat k) s.
(** [l\[i\]] for a tuple *)
Definition py_nth {A} (l : list A) (i : Z) : result A :=
  match nth_error l (Z.to_nat (if (i <? 0)%Z then i + Z.of_nat (length l) else i)%Z) with
  | Some x => if (- Z.of_nat (length l) <=? i)%Z then Ok x else Err IndexError
  | None => Err IndexError
  end.

(** ** Functions *)
(** A function object: declared shapes, [_evaluate] and, if it is a JaxFunction,
    [_evaluate_jax]. *)
Record func := mkfn { fn_in : shape; fn_out : shape; fn_ev : nd F -> result (nd F); fn_evj : option (nd F -> result (nd F)) }.
(** probnum's [Function.__call__]: checks the input, evaluates, asserts the output shape. *)
Definition fn_call (f : func) (x : nd F) : result (nd F) :=
  bind (batch_shape (fn_in f) x) (fun b =>
  bind (fn_ev f x) (fun a => if shape_eqb (nshape a) (b ++ fn_out f) then Ok a else Err AssertionError)).
(** [JaxFunction.jax] ([_jax.py] 14-35): the input needs only broadcast to the declared
    shape, and is passed on as it is; other functions have no such method. *)
Definition fn_jax (f : func) (x : nd F) : result (nd F) :=
  match fn_evj f with
  | None => Err AttributeError
  | Some ev =>
      let b := py_prefix (nshape x) (Z.of_nat (length (nshape x)) - Z.of_nat (length (fn_in f))) in
      bind (broadcast_shapes (nshape x) (b ++ fn_in f)) (fun t =>
      if shape_eqb t (b ++ fn_in f) then
        bind (ev x) (fun a => if shape_eqb (nshape a) (b ++ fn_out f) then Ok a else Err AssertionError)
      else Err ValueError)
  end.

(** ** [Affine] ([_affine.py]) *)
(** [_evaluate] (41-45), [_evaluate_jax] (47-51) *)
Definition affine_eval (A b : nd F) (insh : shape) (x : nd F) : result (nd F) :=
  if shape_eqb insh []
  then bind (nd_bin fmul A x) (fun ax => nd_bin fadd ax b)
  else bind (matvec_last A x) (fun ax => nd_bin fadd ax b).
(** [__init__] (10-30) *)
Definition mk_affine (A b : nd F) : result func :=
  bind (match nshape A with
        | [] => Ok ([], [])
        | [m] => Ok ([], [m])
        | [m; n] => Ok ([n], [m])
        | _ => Err ValueError
        end) (fun '(i, o) =>
  if shape_eqb (nshape b) o then Ok (mkfn i o (affine_eval A b i) (Some (affine_eval A b i))) else Err ValueError).

(** ** [StackedFunction] ([_stack.py]) *)
Record stacked := mkstacked { st_fns : list func; st_axis : Z; st_fn : func }.
(** [_evaluate] (33-37), [_evaluate_jax] (39-43) *)
Definition stack_eval (ev : func -> nd F -> result (nd F)) (fns : list func) (z : Z) (x : nd F) : result (nd F) :=
  bind (mapR (fun f => ev f x) fns) (fun vals => np_stack vals z).
(** [__init__] (11-23): the output shape is that of stacked empty arrays. *)
Definition mk_stacked (fns : list func) (z : Z) : result stacked :=
  match fns with
  | [] => Err IndexError
  | f :: _ =>
      if forallb (fun g => shape_eqb (fn_in g) (fn_in f)) fns then
        bind (np_stack (map (fun g => Nd (fn_out g) (fun _ => f0)) fns) z) (fun o =>
        Ok (mkstacked fns z (mkfn (fn_in f) (nshape o) (stack_eval fn_call fns z) (Some (stack_eval fn_jax fns z)))))
      else Err AssertionError
  end.
(** [stack(fns)] (46-47) with the default axis *)
Definition stack_default (fns : list func) : result stacked := mk_stacked fns (-1).

(** ** [SelectOutput] on a stacked function ([linfuncops/_registry.py] 8-13) *)
(** The index of the operator: an [int] or a tuple. *)
Inductive oidx := OInt (i : Z) | OTup (l : list Z).
Definition select_output (idx : oidx) (s : stacked) : result func :=
  match idx with
  | OInt i => if length (fn_out (st_fn s)) =? 1 then py_nth (st_fns s) i else Err AssertionError
  | OTup _ => Err AssertionError
  end.

End Shaped.
Arguments func : clear implicits.
Arguments stacked : clear implicits.
