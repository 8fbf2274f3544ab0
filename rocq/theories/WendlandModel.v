(** Model of [src/linpde_gp/randprocs/covfuncs/_wendland.py].
    Simplified: evaluation at one pair of points; float rounding is not modelled. *)
From Coq Require Import List Reals Bool Arith ZArith QArith Qcanon.
From Verif Require Import Base PolyModel PolyClassModel NdArray FunExprModel KernelModel.
Import ListNotations.

Definition qz (z : Z) : Qc := Q2Qc (inject_Z z).

(** _wendland.py:240-245: the loop of [pascal_row] with [cnt] iterations left; the assertion on the
    denominator, then [int] of the fraction. *)
Fixpoint pascal_from (n : Z) (k cnt : nat) (n_choose_k : Qc) : result (list Z) :=
  match cnt with
  | O => Ok []
  | S cnt' =>
      let c := (n_choose_k * (qz (n + 1 - Z.of_nat k) / qz (Z.of_nat k)))%Qc in
      if (Qden (this c) =? 1)%positive
      then bind (pascal_from n (S k) cnt' c) (fun row => Ok (Qnum (this c) :: row))
      else Err AssertionError
  end.
(** _wendland.py:234-245. *)
Definition pascal_row (n : Z) : result (list Z) :=
  bind (pascal_from n 1 (Z.to_nat n) (qz 1)) (fun row => Ok (1%Z :: row)).

(** _wendland.py:161-170 ([phi_l_poly]) *)
Fixpoint alternate (j : nat) (row : list Z) : list Z :=
  match row with [] => [] | c :: row' => (if Nat.even j then c else - c)%Z :: alternate (S j) row' end.
Definition phi_l_coefficients (l : Z) : result (list Qc) :=
  bind (pascal_row l) (fun row => Ok (@mkpoly QcF (map qz (alternate 0 row)))).

Section Step.
Context {F : fops}.
(** [d_l_j_s / (j + 2) for j, d_l_j_s in enumerate(d_l_js_s)] *)
Fixpoint enum_div_from (j : nat) (cs : list F) : list F :=
  match cs with [] => [] | c :: cs' => fdiv c (fnat j) :: enum_div_from (S j) cs' end.
(** [-d_l_jm2_s / j for j, d_l_jm2_s in enumerate(d_l_js_s, 2)] *)
Fixpoint enum_negdiv_from (j : nat) (cs : list F) : list F :=
  match cs with [] => [] | c :: cs' => fdiv (fopp c) (fnat j) :: enum_negdiv_from (S j) cs' end.
(** _wendland.py:130-134: the body of the loop *)
Definition wendland_step (cs : list F) : list F :=
  fsum (enum_div_from 2 cs) :: f0 :: enum_negdiv_from 2 cs.
End Step.

(** _wendland.py:155-159 *)
Definition wendland_l (d k : Z) : Z := (d / 2 + k + 1)%Z.

(** _wendland.py:121-141 ([WendlandPolynomial.__init__]) *)
Definition wendland_poly (d k : Z) : result pypoly :=
  let l := wendland_l d k in
  bind (phi_l_coefficients l) (fun cs0 =>
    let cs := Nat.iter (Z.to_nat k) (@wendland_step QcF) cs0 in
    match cs with
    | [] => Err IndexError
    | c0 :: _ =>
        if Qc_eq_bool c0 0 then Err ZeroDivisionError
        else
          let p := make_rational (map (fun c => c / c0)%Qc cs) in
          if (Z.of_nat (py_degree p) =? l + 2 * k)%Z then Ok p else Err AssertionError
    end).

Open Scope R_scope.
(** _wendland.py:213-226 ([WendlandFunction]; numpy, jax and keops) *)
Definition wendland_function (p : pypoly) (r : R) : R := if Rleb r 1 then py_eval p r else 0.

(** _wendland.py:43-58: the covariance function with its polynomial.  Lengthscales broadcast against the input. *)
Record wendland := Wendland { wl_shape : shape; wl_len : array; wl_poly : pypoly }.
Definition mk_wendland (sh : shape) (k : Z) (len : array) : result wendland :=
  bind (wendland_poly (Z.of_nat (size sh)) k) (fun p => Ok (Wendland sh len p)).
(** _wendland.py:68-77 (jax: 79-85, keops: 87-99); [_euclidean_distances] as for Matérn *)
Definition wl_scale (w : wendland) : array := fun i => 1 / wl_len w i.
Definition wendland_eval (w : wendland) (x0 x1 : array) : R :=
  wendland_function (wl_poly w) (bnorm (wl_shape w) (fun i => vdiff x0 x1 i * wl_scale w i)).
(** [k(x0, None)]: all distances are zero *)
Definition wendland_none (w : wendland) (x0 : array) : R := wendland_function (wl_poly w) 0.
