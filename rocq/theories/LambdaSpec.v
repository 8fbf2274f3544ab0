(** What functions and covariance functions given by a callable should compute (C64). *)
From Coq Require Import List Arith ZArith Bool.
From Verif Require Import Base NdArray NdData CrossModel LambdaModel.
Import ListNotations.
Local Open Scope nat_scope.

(** Two arrays of points [x0], [x1] (batches [b0], [b1]) are evaluated pair by pair along the
    broadcast batches: [a] has the entry [v x0_i x1_i o] at the index [i], [o]. *)
Definition pairwise {F : fops} (v : (index -> F) -> (index -> F) -> index -> F) (x0 x1 : nd F) (b0 b1 b outsh : shape) (a : nd F) : Prop :=
  nshape a = b ++ outsh /\
  forall i o, valid_index b i -> valid_index outsh o ->
    nat_ a (i ++ o) = v (fun j => nat_ x0 (operand_index b0 i ++ j)) (fun j => nat_ x1 (operand_index b1 i ++ j)) o.

(** An operator may be applied to argument number [argnum] of a covariance function: it takes
    functions with the shapes of that argument. *)
Definition op_fits (L : opshape) (k : covshape) (argnum : nat) : Prop :=
  (argnum = 0 /\ os_dom L = cs_in0 k /\ os_cod L = cs_out0 k) \/
  (argnum = 1 /\ os_dom L = cs_in1 k /\ os_cod L = cs_out1 k).
(** What the operator then makes of the shapes. *)
Definition op_result (L : opshape) (k : covshape) (argnum : nat) : covshape :=
  match argnum with
  | 0 => CovShape (os_odom L) (cs_in1 k) (os_ocod L) (cs_out1 k)
  | _ => CovShape (cs_in0 k) (os_odom L) (cs_out0 k) (os_ocod L)
  end.
(** The same for functionals. *)
Definition functional_fits (L : lfshape) (k : covshape) (argnum : nat) : Prop :=
  (argnum = 0 /\ ls_dom L = cs_in0 k /\ ls_cod L = cs_out0 k) \/
  (argnum = 1 /\ ls_dom L = cs_in1 k /\ ls_cod L = cs_out1 k).
(** Both arguments exchanged *)
Definition swapped (k : covshape) : covshape := CovShape (cs_in1 k) (cs_in0 k) (cs_out1 k) (cs_out0 k).
