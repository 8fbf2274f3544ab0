(** Model of [src/linpde_gp/domains/].
    Simplified: coordinates are real numbers (a conversion to the floating dtype
    of the domain is the identity on values); dtypes are the three
    representatives below; [__repr__], hashing and caching are not modelled. *)
From Coq Require Import List Reals Bool Arith ZArith.
From Verif Require Import Base NdArray.
Import ListNotations.
Open Scope R_scope.

Inductive dtype := F64 | F32 | I64.
Definition is_floating (d : dtype) : bool := match d with I64 => false | _ => true end.
Definition dtype_eqb (a b : dtype) : bool :=
  match a, b with F64, F64 | F32, F32 | I64, I64 => true | _, _ => false end.

(** An array value: dtype, shape and entries in C order. *)
Record array := mkarray { a_dtype : dtype; a_shape : shape; a_data : list R }.

(** Domain objects.  The factors of a [Box] are determined by its bounds
    ([box_factors]); a [Prod] is a [CartesianProduct] that is not a [Box]. *)
Inductive domain :=
| Interval (dt : dtype) (l u : R)
| Point (p : array)
| Box (dt : dtype) (bounds : list (R * R))
| Prod (dt : dtype) (factors : list domain).

(** _interval.py:15-29 ([Interval.__init__]) with _domain.py:14-21. *)
Definition mk_interval (dt : dtype) (l u : R) : result domain :=
  if Rltb u l then Err ValueError
  else if is_floating dt then Ok (Interval dt l u) else Err TypeError.

(** _point.py:13-16 ([Point.__init__]) with _domain.py:14-21. *)
Definition mk_point (p : array) : result domain :=
  if is_floating (a_dtype p) then Ok (Point p) else Err TypeError.

(** _box.py:42-49: the factor for one pair of bounds. *)
Definition box_factor (dt : dtype) (b : R * R) : domain :=
  if Reqb (fst b) (snd b) then Point (mkarray dt [] [fst b]) else Interval dt (fst b) (snd b).
Definition box_factors (dt : dtype) (bs : list (R * R)) : list domain := map (box_factor dt) bs.

(** _domain.py:24-25, 28-29 for each class: dtype and shape. *)
Definition ddtype (d : domain) : dtype :=
  match d with Interval dt _ _ => dt | Point p => a_dtype p | Box dt _ => dt | Prod dt _ => dt end.
Fixpoint dshape (d : domain) : shape :=
  match d with
  | Interval _ _ _ => []
  | Point p => a_shape p
  | Box _ bs => [length bs]
  | Prod _ fs =>
      (* _cartesian_product.py:27-38 *)
      [fold_right Nat.add 0%nat
         (map (fun f => match dshape f with [n] => n | _ => 1%nat end) fs)]
  end.
Definition ndims (d : domain) : nat := length (dshape d).

(** _cartesian_product.py:14-38 ([CartesianProduct.__init__]) applied to domains. *)
Definition mk_prod (ds : list domain) : result domain :=
  if existsb (fun d => (1 <? ndims d)%nat) ds then Err ValueError
  else
    let dt := match ds with [] => F64 | d :: _ => ddtype d end in
    if existsb (fun d => negb (dtype_eqb (ddtype d) dt)) ds then Err ValueError
    else if is_floating dt then Ok (Prod dt ds) else Err TypeError.

(** Rows of an array of shape (D, 2). *)
Fixpoint pairs (l : list R) : list (R * R) :=
  match l with x :: y :: l' => (x, y) :: pairs l' | _ => [] end.

(** _box.py:18-49 ([Box.__init__]). *)
Definition mk_box (b : array) : result domain :=
  match a_shape b with
  | [_; 2%nat] =>
      if negb (is_floating (a_dtype b)) then Err TypeError
      else
        let bs := pairs (a_data b) in
        if forallb (fun '(l, u) => Rleb l u) bs
        then bind (mk_prod (box_factors (a_dtype b) bs)) (fun _ => Ok (Box (a_dtype b) bs))
        else Err ValueError
  | _ => Err ValueError
  end.

(** Arguments of [asdomain]: a domain, a sequence of arrays, anything else. *)
Inductive domain_like :=
| DLDomain (d : domain)
| DLSeq (args : list array)
| DLOther.

(** [np.stack(arg, axis=1)] of two equally long 1-d arrays. *)
Fixpoint stack2 (x y : list R) : list R :=
  match x, y with a :: x', b :: y' => a :: b :: stack2 x' y' | _, _ => [] end.
(** NumPy's promotion for the representatives. *)
Definition promote (a b : dtype) : dtype :=
  match a, b with I64, I64 => I64 | F32, F32 => F32 | _, _ => F64 end.

(** _asdomain.py:11-22. *)
Definition asdomain (arg : domain_like) : result domain :=
  match arg with
  | DLDomain d => Ok d
  | DLSeq [a; b] =>
      if (length (a_shape a) =? 0)%nat && (length (a_shape b) =? 0)%nat
      then mk_interval F64 (nth 0 (a_data a) 0) (nth 0 (a_data b) 0)
      else if (length (a_shape a) =? 1)%nat && shape_eqb (a_shape a) (a_shape b)
      then mk_box (mkarray (promote (a_dtype a) (a_dtype b)) (a_shape a ++ [2%nat])
                     (stack2 (a_data a) (a_data b)))
      else Err ValueError
  | _ => Err ValueError
  end.

(** Factors of a product domain (_cartesian_product.py:40-42). *)
Definition factors (d : domain) : list domain :=
  match d with Box dt bs => box_factors dt bs | Prod _ fs => fs | _ => [] end.

(** _cartesian_product.py:74-82: replace one factor by each part of its
    boundary. *)
Fixpoint product_parts (pre fs : list domain) (bds : list (result (list domain))) : result (list domain) :=
  match fs, bds with
  | _ :: fs', bd :: bds' =>
      bind bd (fun parts =>
      bind (mapM (fun p => mk_prod (pre ++ p :: fs')) parts) (fun here =>
      bind (product_parts (pre ++ firstn 1 fs) fs' bds') (fun rest => Ok (here ++ rest))))
  | _, _ => Ok []
  end.

(** _interval.py:47-49, _point.py:18-20, and for the factors of a box. *)
Definition simple_boundary (d : domain) : result (list domain) :=
  match d with
  | Interval dt l u =>
      bind (mk_point (mkarray dt [] [l])) (fun a =>
      bind (mk_point (mkarray dt [] [u])) (fun b => Ok [a; b]))
  | d => Ok [d]
  end.
Fixpoint boundary (d : domain) : result (list domain) :=
  match d with
  | Box dt bs =>
      let fs := box_factors dt bs in product_parts [] fs (map simple_boundary fs)
  | Prod _ fs => product_parts [] fs (map boundary fs)
  | d => simple_boundary d
  end.

(** [functools.reduce(operator.mul, ...)] without initial value. *)
Definition reduce_mul (vs : list (result R)) : result R :=
  bind (mapM (fun v => v) vs) (fun l =>
    match l with [] => Err TypeError | v :: l' => Ok (fold_left Rmult l' v) end).

(** _interval.py:51-53, _point.py:22-24, _cartesian_product.py:84-88. *)
Definition simple_volume (d : domain) : result R :=
  match d with Interval _ l u => Ok (u - l) | _ => Ok 0 end.
Fixpoint volume (d : domain) : result R :=
  match d with
  | Box dt bs => reduce_mul (map simple_volume (box_factors dt bs))
  | Prod _ fs => reduce_mul (map volume fs)
  | d => simple_volume d
  end.

(** Elementwise comparison of arrays with broadcasting, then [np.all].
    (Incompatible shapes raise since NumPy 1.25; earlier versions give False.) *)
Definition lookup (s : shape) (data : list R) (i : index) : R := nth (ravel s i) data 0.
Definition all_equal (s : shape) (x : list R) (t : shape) (y : list R) : result bool :=
  bind (broadcast_shapes s t) (fun r =>
    Ok (forallb (fun i => Reqb (lookup s x (operand_index s i)) (lookup t y (operand_index t i)))
          (all_indices r))).

(** _interval.py:62-68, _point.py:42-48, _box.py:70-76, _cartesian_product.py:90-91. *)
Definition contains (d : domain) (item : array) : result bool :=
  match d with
  | Interval _ l u =>
      if shape_eqb (a_shape item) []
      then let x := nth 0 (a_data item) 0 in Ok (Rleb l x && Rleb x u)
      else Ok false
  | Point p =>
      if shape_eqb (a_shape item) (a_shape p)
      then all_equal (a_shape p) (a_data p) (a_shape p) (a_data item)
      else Ok false
  | Box _ bs =>
      if shape_eqb (a_shape item) [length bs]
      then Ok (forallb (fun '((l, u), x) => Rleb l x && Rleb x u) (combine bs (a_data item)))
      else Ok false
  | Prod _ _ => Err NotImplementedError
  end.

(** _interval.py:70-71, _point.py:50-51, _box.py:78-79, _cartesian_product.py:93-97,
    with Python's rule that the reflected method of the subclass [Box] takes
    precedence when a [CartesianProduct] is compared with a [Box]. *)
Definition flat_bounds_of (bs : list (R * R)) : list R := flat_map (fun '(l, u) => [l; u]) bs.
Fixpoint dom_eq (d1 d2 : domain) : result bool :=
  match d1, d2 with
  | Interval _ l u, Interval _ l' u' => Ok (Reqb l l' && Reqb u u')
  | Point p, Point q => all_equal (a_shape p) (a_data p) (a_shape q) (a_data q)
  | Box _ bs, Box _ bs' =>
      all_equal [length bs; 2%nat] (flat_bounds_of bs) [length bs'; 2%nat] (flat_bounds_of bs')
  | Prod _ fs, Prod _ gs =>
      (fix go fs gs {struct fs} := match fs, gs with
         | f :: fs', g :: gs' =>
             bind (dom_eq f g) (fun b => if b then go fs' gs' else Ok false)
         | _, _ => Ok true
         end) fs gs
  | _, _ => Ok false
  end.

(** _interval.py:34-41 ([Interval.__getitem__]): the last line *returns* an
    exception object. *)
Inductive got := GotNumber (x : R) | GotException (e : exn).
Definition interval_getitem (l u : R) (idx : Z) : got :=
  if (idx =? 0)%Z || (idx =? -2)%Z then GotNumber l
  else if (idx =? 1)%Z || (idx =? -1)%Z then GotNumber u
  else GotException KeyError.

(** _cartesian_product.py:102-106 and _box.py:55-59: integer index, and a
    selection of several positions (slice or index list, already resolved). *)
Definition prod_getitem (d : domain) (idx : Z) : result domain :=
  let fs := factors d in
  let n := Z.of_nat (length fs) in
  if (0 <=? idx)%Z && (idx <? n)%Z then Ok (nth (Z.to_nat idx) fs d)
  else if (- n <=? idx)%Z && (idx <? 0)%Z then Ok (nth (Z.to_nat (idx + n)) fs d)
  else Err IndexError.
Definition prod_select (d : domain) (sel : list nat) : result domain :=
  match d with
  | Box dt bs =>
      mk_box (mkarray dt [length sel; 2%nat] (flat_bounds_of (map (fun i => nth i bs (0, 0)) sel)))
  | Prod _ fs => mk_prod (map (fun i => nth i fs d) sel)
  | _ => Err Unmodelled
  end.

(** [np.linspace(a, b, n)]. *)
Definition linspace (a b : R) (n : nat) : list R :=
  match n with
  | 1%nat => [a]
  | _ => map (fun i => a + INR i * ((b - a) / INR (n - 1))) (seq 0 n)
  end.

(** _interval.py:73-83 ([Interval.uniform_grid]); [shape] resolved to a tuple. *)
Definition interval_grid (l u : R) (shp : list nat) (inset : R) : result (list R) :=
  match shp with
  | [n] => Ok (linspace (l + inset) (u - inset) n)
  | _ => Err AssertionError
  end.

(** [np.broadcast_to(inset, k)] for a scalar or 1-d [inset]. *)
Inductive inset_arg := InsetScalar (r : R) | InsetVec (l : list R).
Definition broadcast_inset (i : inset_arg) (k : nat) : result (list R) :=
  match i with
  | InsetScalar r => Ok (repeat r k)
  | InsetVec [r] => Ok (repeat r k)
  | InsetVec l => if (length l =? k)%nat then Ok l else Err ValueError
  end.

(** _box.py:39-40. *)
Definition n_interior (bs : list (R * R)) : nat :=
  length (filter (fun '(l, u) => negb (Reqb l u)) bs).

(** _box.py:92-96: scatter the interior values, [dflt] for collapsed dimensions. *)
Fixpoint scatter {A} (bs : list (R * R)) (vals : list A) (dflt : A) : list A :=
  match bs with
  | [] => []
  | (l, u) :: bs' =>
      if Reqb l u then dflt :: scatter bs' vals dflt
      else match vals with
           | v :: vals' => v :: scatter bs' vals' dflt
           | [] => dflt :: scatter bs' [] dflt
           end
  end.

(** _box.py:98-104. *)
Definition get_grid (d : domain) (num_points : nat) (inset : R) : result (list R) :=
  match d with
  | Interval _ l u => interval_grid l u [num_points] inset
  | Point p => if (num_points =? 1)%nat then Ok (a_data p) else Err AssertionError
  | _ => Err AssertionError
  end.

(** _box.py:81-114 ([Box.uniform_grid]): the factors of the resulting
    [TensorProductGrid].  [shape] is a tuple; a wrong number of entries is
    rejected by [as_shape] (expansion of a scalar shape by that helper of
    another package is not modelled). *)
Definition box_grid (dt : dtype) (bs : list (R * R)) (shp : list nat) (inset : inset_arg) : result (list (list R)) :=
  if negb (length shp =? n_interior bs)%nat then Err TypeError
  else bind (broadcast_inset inset (n_interior bs)) (fun insets =>
    mapM (fun '(f, (n, i)) => get_grid f n i)
      (combine (box_factors dt bs) (combine (scatter bs shp 1%nat) (scatter bs insets 0)))).

(** _cartesian_product.py:44-72 ([_as_box]): the rows of bounds. *)
Definition as_box_rows (d : domain) : result (list (R * R)) :=
  match d with
  | Interval _ l u => Ok [(l, u)]
  | Box dt bs =>
      (* [tuple(interval)] of a [Point] factor raises *)
      mapM (fun f => match f with Interval _ l u => Ok (l, u) | _ => Err TypeError end) (box_factors dt bs)
  | Point p => Ok (map (fun c => (c, c)) (a_data p))
  | Prod _ _ => Err Unmodelled
  end.
Definition is_prod (d : domain) : bool := match d with Prod _ _ => true | _ => false end.
Definition as_box (dt : dtype) (fs : list domain) : result (option domain) :=
  if existsb is_prod fs then Ok None
  else bind (mapM as_box_rows fs) (fun rows =>
    let bs := concat rows in
    bind (mk_box (mkarray dt (match bs with [] => [0%nat] | _ => [length bs; 2%nat] end) (flat_bounds_of bs)))
      (fun b => Ok (Some b))).

(** _cartesian_product.py:123-127 ([CartesianProduct.uniform_grid]). *)
Definition prod_grid (d : domain) (shp : list nat) (inset : inset_arg) : result (list (list R)) :=
  match d with
  | Box dt bs => box_grid dt bs shp inset
  | Prod dt fs =>
      bind (as_box dt fs) (fun o =>
        match o with Some (Box dt' bs) => box_grid dt' bs shp inset | _ => Err NotImplementedError end)
  | _ => Err Unmodelled
  end.
