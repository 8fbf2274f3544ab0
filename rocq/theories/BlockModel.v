(** Model of [linops/_block.py] ([BlockMatrix]) and [linops/_concatenated.py].

    A linear operator is modelled by the matrix it represents: its shape and
    its entries.  Entries outside the shape carry no meaning; statements compare
    matrices entry by entry inside their shape.  dtypes are not modelled. *)
From Coq Require Import List ZArith Arith Bool.
From Verif Require Import Base.
Import ListNotations.

Section Block.
Context {F : fops}.

Record mat := mkmat { nrows : nat; ncols : nat; entry : nat -> nat -> F }.

(** NumPy / probnum primitives on 2-D arrays. *)
Definition zero_mat (r c : nat) : mat := mkmat r c (fun _ _ => f0).
(** [a + b] for equal shapes. *)
Definition mat_add (a b : mat) : mat := mkmat (nrows a) (ncols a) (fun i j => fadd (entry a i j) (entry b i j)).
(** [a.T] *)
Definition mat_T (a : mat) : mat := mkmat (ncols a) (nrows a) (fun i j => entry a j i).
(** [a @ x]; shapes that do not fit raise ValueError. *)
Definition mat_mul (a x : mat) : result mat :=
  if ncols a =? nrows x then
    Ok (mkmat (nrows a) (ncols x) (fun i j => fsum (map (fun k => fmul (entry a i k) (entry x k j)) (seq 0 (ncols a)))))
  else Err ValueError.
(** [np.concatenate((a, b), axis=-2)] *)
Definition vcat2 (a b : mat) : result mat :=
  if ncols a =? ncols b then
    Ok (mkmat (nrows a + nrows b) (ncols a) (fun i j => if i <? nrows a then entry a i j else entry b (i - nrows a) j))
  else Err ValueError.
(** [np.concatenate((a, b), axis=-1)] *)
Definition hcat2 (a b : mat) : result mat :=
  if nrows a =? nrows b then
    Ok (mkmat (nrows a) (ncols a + ncols b) (fun i j => if j <? ncols a then entry a i j else entry b i (j - ncols a)))
  else Err ValueError.
(** [np.concatenate] of a sequence; the empty sequence raises ValueError. *)
Fixpoint cat_from (cat2 : mat -> mat -> result mat) (a : mat) (l : list mat) : result mat :=
  match l with [] => Ok a | b :: l' => bind (cat_from cat2 b l') (cat2 a) end.
Definition concatenate (cat2 : mat -> mat -> result mat) (l : list mat) : result mat :=
  match l with [] => Err ValueError | a :: l' => cat_from cat2 a l' end.
Definition vconcat : list mat -> result mat := concatenate vcat2.
Definition hconcat : list mat -> result mat := concatenate hcat2.
(** [np.block] of a nested list: rows side by side, then the rows stacked. *)
Definition np_block (rows : list (list mat)) : result mat :=
  bind (mapM hconcat rows) vconcat.
(** Rows [i..j) of [x]. *)
Definition row_slice (x : mat) (i j : nat) : mat := mkmat (j - i) (ncols x) (fun a b => entry x (i + a) b).
(** [np.split(x, indices, axis=-2)] for increasing indices inside the range. *)
Fixpoint np_split (x : mat) (start : nat) (indices : list nat) : list mat :=
  match indices with
  | [] => [row_slice x start (nrows x)]
  | i :: rest => row_slice x start i :: np_split x i rest
  end.
(** [np.sum(mats, axis=0)] of a non-empty tuple of equally shaped matrices; other
    tuples raise ValueError (inhomogeneous). *)
Fixpoint sum_from (a : mat) (l : list mat) : result mat :=
  match l with
  | [] => Ok a
  | b :: l' => bind (sum_from b l') (fun s =>
      if (nrows a =? nrows s) && (ncols a =? ncols s) then Ok (mat_add a s) else Err ValueError)
  end.
Definition np_sum (l : list mat) : result mat :=
  match l with [] => Err ValueError | a :: l' => sum_from a l' end.
(** [np.array(sizes).cumsum()[:-1]] *)
Fixpoint cumsum (acc : nat) (l : list nat) : list nat :=
  match l with [] => [] | x :: l' => acc + x :: cumsum (acc + x) l' end.
Definition split_indices (sizes : list nat) : list nat := removelast (cumsum 0 sizes).
(** [for block, cur_x in zip(blocks, x_split): block @ cur_x] *)
Definition zip_mul (blocks xs : list mat) : result (list mat) :=
  mapM (fun '(a, x) => mat_mul a x) (combine blocks xs).

(** ** BlockMatrix *)
(** The constructed object: the array of blocks ([_block.py] 28-48). *)
Record block_matrix := mkbm { bm_blocks : list (list mat); bm_rows : nat; bm_cols : nat; bm_split : list nat }.

Definition dflt : mat := zero_mat 0 0.
Definition block_at (blocks : list (list mat)) (i j : nat) : mat := nth j (nth i blocks []) dflt.

(** [BlockMatrix.__init__] ([_block.py] 28-48).  [np.block] on a nested list of
    operators builds the 2-D object array of the operators; it raises ValueError
    for an empty list at either level and for rows of different lengths. *)
Definition mk_block_matrix (blocks : list (list mat)) : result block_matrix :=
  match blocks with
  | [] => Err ValueError
  | row0 :: _ =>
      if existsb (fun row => length row =? 0) blocks then Err ValueError
      else if negb (forallb (fun row => length row =? length row0) blocks) then Err ValueError
      else if negb (forallb (fun i => forallb (fun j =>
                 (nrows (block_at blocks i j) =? nrows (block_at blocks i 0)) &&
                 (ncols (block_at blocks i j) =? ncols (block_at blocks 0 j)))
                 (seq 0 (length row0))) (seq 0 (length blocks)))
      then Err ValueError
      else
        let widths := map ncols row0 in
        Ok (mkbm blocks (fold_right Nat.add 0 (map (fun row => nrows (nth 0 row dflt)) blocks))
                 (fold_right Nat.add 0 widths) (split_indices widths))
  end.

(** [BlockMatrix._matmul] ([_block.py] 54-69), called through [A @ x], which
    checks the inner dimension first (probnum). *)
Definition bm_matmul (m : block_matrix) (x : mat) : result mat :=
  if bm_cols m =? nrows x then
    let xs := np_split x 0 (bm_split m) in
    bind (mapM (fun row => bind (zip_mul row xs) np_sum) (bm_blocks m)) vconcat
  else Err ValueError.

(** [blocks.T] of the object array, entries transposed ([_block.py] 71-75). *)
Definition transpose_blocks (blocks : list (list mat)) : list (list mat) :=
  match blocks with
  | [] => []
  | row0 :: _ => map (fun j => map (fun i => mat_T (block_at blocks i j)) (seq 0 (length blocks))) (seq 0 (length row0))
  end.
Definition bm_transpose (m : block_matrix) : result block_matrix :=
  mk_block_matrix (transpose_blocks (bm_blocks m)).

(** [BlockMatrix._todense] ([_block.py] 77-81). *)
Definition bm_todense (m : block_matrix) : result mat := np_block (bm_blocks m).

(** ** ConcatenatedLinearOperator *)
(** ([_concatenated.py] 9-31): the normalised axis is 0 or 1. *)
Record concat_op := mkcat { cat_ops : list mat; cat_axis1 : bool; cat_rows : nat; cat_cols : nat; cat_split : list nat }.

(** [__init__] ([_concatenated.py] 9-31); [axis] may be any integer. *)
Definition mk_concat (ops : list mat) (axis : Z) : result concat_op :=
  match ops with
  | [] => Err ValueError
  | a :: _ =>
      if negb (existsb (Z.eqb axis) [0; 1; -1; -2]%Z) then Err ValueError
      else
        let axis' := if (axis <? 0)%Z then (axis + 2)%Z else axis in
        if (axis' =? 0)%Z then
          if forallb (fun b => ncols b =? ncols a) ops
          then Ok (mkcat ops false (fold_right Nat.add 0 (map nrows ops)) (ncols a) [])
          else Err AssertionError
        else
          if forallb (fun b => nrows b =? nrows a) ops
          then Ok (mkcat ops true (nrows a) (fold_right Nat.add 0 (map ncols ops)) (split_indices (map ncols ops)))
          else Err AssertionError
  end.

(** [_matmul] ([_concatenated.py] 41-57), behind probnum's dimension check. *)
Definition cat_matmul (m : concat_op) (x : mat) : result mat :=
  if cat_cols m =? nrows x then
    if cat_axis1 m then bind (zip_mul (cat_ops m) (np_split x 0 (cat_split m))) np_sum
    else bind (mapM (fun a => mat_mul a x) (cat_ops m)) vconcat
  else Err ValueError.

(** [_transpose] ([_concatenated.py] 59-62). *)
Definition cat_transpose (m : concat_op) : result concat_op :=
  mk_concat (map mat_T (cat_ops m)) (if cat_axis1 m then 0 else 1)%Z.

(** [_todense] ([_concatenated.py] 64-67). *)
Definition cat_todense (m : concat_op) : result mat :=
  if cat_axis1 m then hconcat (cat_ops m) else vconcat (cat_ops m).

End Block.
Arguments mat : clear implicits.
Arguments block_matrix : clear implicits.
Arguments concat_op : clear implicits.
