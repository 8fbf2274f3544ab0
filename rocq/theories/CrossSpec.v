(** What the views of covariance functions and cross-covariances show, entry by
    entry.  [g] is the intended value. *)
From Coq Require Import List Arith.
From Verif Require Import Base NdArray NdData BlockModel CovModel CovSpec.
Import ListNotations.

Section Spec.
Context {F : fops}.

(** An array of shape [b + o0 + o1] whose entry at the point number [i] and outputs
    [o], [q] is [g i o q]. *)
Definition cov_array (a : nd F) (b o0 o1 : shape) (g : index -> index -> index -> F) : Prop :=
  nshape a = b ++ o0 ++ o1 /\
  forall i o q, valid_index b i -> valid_index o0 o -> valid_index o1 q -> nat_ a (i ++ o ++ q) = g i o q.
(** A matrix over all pairs of points: rows and columns are numbered in C order by
    outputs first, then points. *)
Definition cov_matrix (m : mat F) (b0 b1 o0 o1 : shape) (g : index -> index -> index -> index -> F) : Prop :=
  nrows m = size (o0 ++ b0) /\ ncols m = size (o1 ++ b1) /\
  forall i j o q, valid_index b0 i -> valid_index b1 j -> valid_index o0 o -> valid_index o1 q ->
    entry m (ravel (o0 ++ b0) (o ++ i)) (ravel (o1 ++ b1) (q ++ j)) = g i j o q.

(** A cross-covariance between the outputs [out] of a process at the points [b] and a
    random vector of shape [rv]: the random vector comes first if [rev], else last. *)
Definition cross_array (a : nd F) (rev : bool) (b out rv : shape) (g : index -> index -> index -> F) : Prop :=
  nshape a = (if rev then rv ++ b ++ out else b ++ out ++ rv) /\
  forall i o r, valid_index b i -> valid_index out o -> valid_index rv r ->
    nat_ a (if rev then r ++ i ++ o else i ++ o ++ r) = g i o r.
(** The same as a matrix, outputs of the process before its points. *)
Definition cross_matrix (m : mat F) (rev : bool) (b out rv : shape) (g : index -> index -> index -> F) : Prop :=
  if rev then matrix_shows m rv (out ++ b) (fun r oi => g (skipn (length out) oi) (firstn (length out) oi) r)
  else matrix_shows m (out ++ b) rv (fun oi r => g (skipn (length out) oi) (firstn (length out) oi) r).
(** A covariance with the random vector on the first or second axis. *)
Definition functl_cov (c : covariance F) (rev : bool) (fout rv : shape) (g : index -> index -> F) : Prop :=
  if rev then shows c rv fout (fun r s => g s r) else shows c fout rv g.
End Spec.
