(** Model of differential operators as coefficient dictionaries:
    [linfuncops/diffops/_coefficients.py], [_lindiffop.py], [_arithmetic.py],
    [_partial_derivative.py], [_laplacian.py], [_directional_derivative.py],
    [_derivative.py].
    A dictionary is the list of its items in insertion order, keys are unique. *)
From Coq Require Import List Arith ZArith Bool.
From Verif Require Import Base NdArray.
Import ListNotations.

(** [MultiIndex] (_coefficients.py:9-62): an array of integers, data in C order. *)
Record mi := MI { mi_shape : shape; mi_arr : list nat }.
(** 21-25 *)
Definition mk_mi (sh : shape) (data : list Z) : result mi :=
  if existsb (fun z => (z <? 0)%Z) data then Err ValueError else Ok (MI sh (map Z.to_nat data)).
(** The array with entries [f i]. *)
Definition mi_of (sh : shape) (f : index -> nat) : mi := MI sh (map f (all_indices sh)).
Definition index_in (sh : shape) (i : index) : bool := existsb (fun j => shape_eqb j i) (all_indices sh).
(** 27-33, for a complete non-negative index and order *)
Definition from_index (i : index) (sh : shape) (order : nat) : result mi :=
  if index_in sh i then Ok (mi_of sh (fun j => if shape_eqb j i then order else 0)) else Err IndexError.
(** 35-37, 39-41, 51-52 *)
Definition mi_order (a : mi) : nat := list_sum (mi_arr a).
Definition mi_mixed (a : mi) : bool := 1 <? length (filter (fun n => negb (n =? 0)) (mi_arr a)).
Definition mi_get (a : mi) (i : index) : result nat :=
  if index_in (mi_shape a) i then Ok (nth (ravel (mi_shape a) i) (mi_arr a) 0) else Err IndexError.
(** 54-60, for arrays of one shape: the keys of one dictionary (see [mk_coeffs]). *)
Definition mi_eqb (a b : mi) : bool := shape_eqb (mi_shape a) (mi_shape b) && shape_eqb (mi_arr a) (mi_arr b).
(** Equality of codomain indices, tuples of Python integers. *)
Definition ci_eqb (a b : list Z) : bool := if list_eq_dec Z.eq_dec a b then true else false.

(** Python dictionaries. *)
Section Dict.
Variables (K V : Type) (eqb : K -> K -> bool).
Fixpoint dget (d : list (K * V)) (k : K) : option V :=
  match d with [] => None | (k', v) :: d' => if eqb k' k then Some v else dget d' k end.
(** [d\[k\] = v] keeps the position of an existing key. *)
Fixpoint dset (d : list (K * V)) (k : K) (v : V) : list (K * V) :=
  match d with [] => [(k, v)] | (k', v') :: d' => if eqb k' k then (k', v) :: d' else (k', v') :: dset d' k v end.
End Dict.
Arguments dget {K V} eqb d k.
Arguments dset {K V} eqb d k v.

Section Coeffs.
Variable F : fops.
Definition inner := list (mi * F).
Definition outer := list (list Z * inner).
(** [PartialDerivativeCoefficients] (65-198) *)
Record coeffs := Coeffs { c_dict : outer; c_dom : shape; c_cod : shape }.

(** [all(x < y for x, y in zip(codomain_idx, input_codomain_shape))] *)
Definition all_lt (i : list Z) (s : shape) : bool := forallb (fun '(x, y) => (x <? Z.of_nat y)%Z) (combine i s).
(** [__init__] (96-121) *)
Definition mk_coeffs (d : outer) (dom cod : shape) : result coeffs :=
  if forallb (fun '(i, inn) => (length i =? length cod) && all_lt i cod &&
                forallb (fun '(a, _) => shape_eqb (mi_shape a) dom) inn) d
  then Ok (Coeffs d dom cod) else Err ValueError.
(** 104-117, 123-125 *)
Definition num_entries (c : coeffs) : nat := list_sum (map (fun '(_, inn) => length inn) (c_dict c)).
(** 127-133 *)
Definition has_mixed (c : coeffs) : bool :=
  existsb (fun '(_, inn) => existsb (fun '(a, _) => mi_mixed a) inn) (c_dict c).
(** 143-144 *)
Definition c_get (c : coeffs) (i : list Z) : result inner :=
  match dget ci_eqb (c_dict c) i with Some inn => Ok inn | None => Err KeyError end.

(** inner loop of [__add__] (169-177) *)
Definition merge (inn other : inner) : inner :=
  fold_left (fun acc '(a, x) =>
    match dget mi_eqb acc a with
    | Some y => dset mi_eqb acc a (fadd y x)
    | None => dset mi_eqb acc a x
    end) other inn.
(** [__add__] (154-184) *)
Definition c_add (c1 c2 : coeffs) : result coeffs :=
  if negb (shape_eqb (c_dom c1) (c_dom c2)) then Err ValueError
  else if negb (shape_eqb (c_cod c1) (c_cod c2)) then Err ValueError
  else mk_coeffs
    (fold_left (fun acc '(i, inn) =>
      match dget ci_eqb acc i with
      | Some old => dset ci_eqb acc i (merge old inn)
      | None => dset ci_eqb acc i inn
      end) (c_dict c2) (c_dict c1))
    (c_dom c1) (c_cod c1).
(** [__rmul__] (189-198), [__neg__] (151-152), [__sub__] (186-187) *)
Definition c_scale (s : F) (c : coeffs) : result coeffs :=
  mk_coeffs (map (fun '(i, inn) => (i, map (fun '(a, x) => (a, fmul x s)) inn)) (c_dict c)) (c_dom c) (c_cod c).
Definition c_neg (c : coeffs) : result coeffs := c_scale (fopp f1) c.
Definition c_sub (c1 c2 : coeffs) : result coeffs := bind (c_neg c2) (fun n => c_add c1 n).

(** The comprehension [{from_index(i, shape, order): x for i, x in ndenumerate(w) if x != 0}]
    (_laplacian.py:33-43, _directional_derivative.py:19-29) *)
Definition axis_dict (sh : shape) (w : index -> F) (order : nat) : outer :=
  [([], fold_left (fun acc i => if feqb (w i) f0 then acc
          else dset mi_eqb acc (mi_of sh (fun j => if shape_eqb j i then order else 0)) (w i)) (all_indices sh) [])].
(** [WeightedLaplacian.__init__] (_laplacian.py:30-47) *)
Definition weighted_laplacian (sh : shape) (w : index -> F) : result coeffs := mk_coeffs (axis_dict sh w 2) sh [].
(** [Laplacian.__init__] (_laplacian.py:78-79) *)
Definition laplacian (sh : shape) : result coeffs := weighted_laplacian sh (fun _ => f1).
(** [SpatialLaplacian.__init__] (_laplacian.py:103-114) *)
Definition spatial_laplacian (sh : shape) : result coeffs :=
  match sh with
  | [n] => if n <? 2 then Err ValueError
           else bind (laplacian [n - 1]) (fun _ => weighted_laplacian sh (fun i => if shape_eqb i [0] then f0 else f1))
  | _ => Err ValueError
  end.
(** [DirectionalDerivative.__init__] (_directional_derivative.py:16-35) *)
Definition directional_derivative (sh : shape) (dir : index -> F) : result coeffs := mk_coeffs (axis_dict sh dir 1) sh [].
(** [PartialDerivative.__init__] (_partial_derivative.py:17-28) *)
Definition partial_derivative (a : mi) : result coeffs := mk_coeffs [([], [(a, f1)])] (mi_shape a) [].
(** [TimeDerivative.__init__] (_partial_derivative.py:131-144) *)
Definition time_derivative (sh : shape) : result coeffs :=
  match sh with
  | [] => bind (mk_mi [] [1%Z]) partial_derivative
  | [n] => bind (mk_mi [S (n - 1)] (1%Z :: repeat 0%Z (n - 1))) partial_derivative
  | _ => Err ValueError
  end.
(** [Derivative.__init__] (_derivative.py:12-22) *)
Definition derivative (order : Z) : result coeffs :=
  if (order <? 0)%Z then Err ValueError else bind (mk_mi [] [order]) partial_derivative.
(** The two summands of [HeatOperator] (_heat.py:14-33); the sum requires equal
    shapes ([linfuncops/_arithmetic.py] 71-86) *)
Definition heat_operator (sh : shape) (alpha : F) : result (coeffs * coeffs) :=
  match sh with
  | [n] => bind (time_derivative sh) (fun t =>
           bind (weighted_laplacian sh (fun i => if shape_eqb i [0] then f0 else fopp alpha)) (fun l =>
           if shape_eqb (c_dom t) (c_dom l) then Ok (t, l) else Err AssertionError))
  | _ => Err ValueError
  end.
End Coeffs.
Arguments Coeffs {F} c_dict c_dom c_cod.
Arguments c_dict {F} c. Arguments c_dom {F} c. Arguments c_cod {F} c.
Arguments mk_coeffs {F} d dom cod. Arguments num_entries {F} c. Arguments has_mixed {F} c. Arguments c_get {F} c i.
Arguments c_add {F} c1 c2. Arguments c_scale {F} s c. Arguments c_neg {F} c. Arguments c_sub {F} c1 c2.
Arguments merge {F} inn other. Arguments axis_dict {F} sh w order. Arguments weighted_laplacian {F} sh w.
Arguments directional_derivative {F} sh dir. Arguments heat_operator {F} sh alpha.

(** [factorize_first_order] (_partial_derivative.py:67-80) and [factorize_dimwise]
    (82-93): multi-indices of the factors.  [CompositeLinearFunctionOperator()] of no
    factors raises IndexError ([linfuncops/_arithmetic.py] 120-122). *)
Definition composite_of {A} (l : list A) : result (list A) := match l with [] => Err IndexError | _ => Ok l end.
Definition unit_mi (sh : shape) (i : index) (order : nat) : mi := mi_of sh (fun j => if shape_eqb j i then order else 0).
Definition factorize_first_order (a : mi) : result (list mi) :=
  composite_of (flat_map (fun '(i, n) => repeat (unit_mi (mi_shape a) i 1) n) (combine (all_indices (mi_shape a)) (mi_arr a))).
Definition factorize_dimwise (a : mi) : result (list mi) :=
  composite_of (flat_map (fun '(i, n) => if 0 <? n then [unit_mi (mi_shape a) i n] else [])
                 (combine (all_indices (mi_shape a)) (mi_arr a))).
(** [get_factor_at_dim] (46-53) *)
Definition get_factor_at_dim (a : mi) (i : index) : result mi := bind (mi_get a i) (fun n => mk_mi [] [Z.of_nat n]).
