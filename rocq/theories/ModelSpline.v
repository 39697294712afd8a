(** Model of class BezierSpline (src/bezier_spline.hpp, src/bezier_spline.inc).

    [parametric_dimension] is the length of the degree list.  Assertions are
    active (debug build).  Logging calls other than TerminatingError have no
    effect on the result and are left out here (see ModelLogger.v).
    TerminatingError throws: modelled by [Throw]. *)
From Coq Require Import Arith Lia List ZArith NArith Bool.
From Verif Require Import Prelude Scalar ModelBasis.
Import ListNotations.

(** Data members, src/bezier_spline.hpp:74-77, 140-143. *)
Record spline (V : Type) : Type := mkSpline {
  degrees : list nat;
  number_of_control_points : nat;
  index_offsets : list nat;
  control_points : list V
}.
Arguments mkSpline {V}.
Arguments degrees {V}.
Arguments number_of_control_points {V}.
Arguments index_offsets {V}.
Arguments control_points {V}.

Definition with_cps {V} (s : spline V) (c : list V) : spline V :=
  mkSpline (degrees s) (number_of_control_points s) (index_offsets s) c.

(** src/bezier_spline.inc:25-32  UpdateIndexOffsets_ (starting from a
    zero-initialised std::array of the same length; entry 0 of an empty array is UB). *)
Definition UpdateIndexOffsets_ (degs : list nat) : res (list nat) :=
  do offs <- set (repeat 0 (length degs)) 0 1;
  for_up 1 (length degs - 1) (fun i offs =>
    do a <- get offs (i - 1);
    do p <- get degs (i - 1);
    set offs i (a * (p + 1))) offs.

(** The counting loop of src/bezier_spline.hpp:189-191, 201-203, 230-232. *)
Definition count_points (degs : list nat) : res nat :=
  for_up 0 (length degs) (fun i n => do p <- get degs i; Ok (n * (p + 1))) 1.

Section Generic.
Context {T V : Type} {o : SOps T} {ov : VOps T V}.

(** src/bezier_spline.hpp:185-194  BezierSpline(deg) *)
Definition Spline_deg (deg : list nat) : res (spline V) :=
  do n <- count_points deg;
  do offs <- UpdateIndexOffsets_ deg;
  Ok (mkSpline deg n offs (repeat v0 n)).

(** src/bezier_spline.hpp:196-207  BezierSpline(deg, points) *)
Definition Spline_deg_points (deg : list nat) (points : list V) : res (spline V) :=
  do n <- count_points deg;
  do offs <- UpdateIndexOffsets_ deg;
  do _ <- assert_ (n =? length points);
  Ok (mkSpline deg n offs points).

(** src/bezier_spline.hpp:226-235  UpdateDegrees *)
Definition UpdateDegrees (s : spline V) (new_degrees : list nat) : res (spline V) :=
  do n <- count_points new_degrees;
  do offs <- UpdateIndexOffsets_ new_degrees;
  Ok (mkSpline new_degrees n offs (resize v0 (control_points s) n)).

(** src/bezier_spline.inc:34-44  LocalToGlobalIndex (an integer division by a zero offset,
    as in a default-constructed spline, is undefined) *)
Definition LocalToGlobalIndex (s : spline V) (local_index : nat) : res (list nat) :=
  for_up 0 (length (degrees s)) (fun i l =>
    do off <- get (index_offsets s) i;
    do _ <- (if off =? 0 then UB else Ok tt);
    do p <- get (degrees s) i;
    set l i ((local_index / off) mod (p + 1))) (repeat 0 (length (degrees s))).

(** src/bezier_spline.inc:46-58  GlobalToLocalIndex *)
Definition GlobalToLocalIndex (s : spline V) (local_index : list nat) : res nat :=
  do c <- get local_index 0;
  for_up 1 (length (degrees s) - 1) (fun i c =>
    do off <- get (index_offsets s) i;
    do l <- get local_index i;
    Ok (c + off * l)) c.

(** src/bezier_spline.inc:107-131  ControlPoint(index...): the accumulator is
    an [unsigned int]. *)
Definition VariadicPosition (s : spline V) (index : list nat) : res nat :=
  do c <- for_up 0 (length index) (fun i c =>
    do off <- get (index_offsets s) i;
    do l <- get index i;
    Ok (u32 (c + Z.of_nat off * Z.of_nat l))%Z) 0%Z;
  Ok (Z.to_nat c).
Definition ControlPoint_variadic (s : spline V) (index : list nat) : res V :=
  do i <- VariadicPosition s index; get (control_points s) i.
(** writing through the reference returned by the non-const version *)
Definition SetControlPoint_variadic (s : spline V) (index : list nat) (v : V)
  : res (spline V) :=
  do i <- VariadicPosition s index;
  do c <- set (control_points s) i v; Ok (with_cps s c).

(** src/bezier_spline.inc:133-147  ControlPoint(std::array) *)
Definition ControlPoint (s : spline V) (index : list nat) : res V :=
  do i <- GlobalToLocalIndex s index; get (control_points s) i.
Definition SetControlPoint (s : spline V) (index : list nat) (v : V) : res (spline V) :=
  do i <- GlobalToLocalIndex s index;
  do c <- set (control_points s) i v; Ok (with_cps s c).

(** src/bezier_spline.inc:149-227  OrderElevateAlongParametricDimension.
    The narrowing conversions to [unsigned int] / [int] are explicit; the index
    [global_index] is an [unsigned int] that wraps around after the last write. *)
Definition OrderElevate (s : spline V) (par_dim : nat) : res (spline V) :=
  do p <- get (degrees s) par_dim;
  do off <- get (index_offsets s) par_dim;
  let zp := Z.of_nat p in
  let zoff := Z.of_nat off in
  let n_starting_points := u32 (Z.of_nat (number_of_control_points s / (p + 1))) in
  let starting_point_offset := u32 (zoff * (zp + 1)) in
  let starting_points_per_group := i32 zoff in
  do _ <- (if (starting_points_per_group =? 0)%Z then UB else Ok tt);
  let n_groups := i32 (n_starting_points / u32 starting_points_per_group) in
  let n' := number_of_control_points s / (p + 1) * (p + 2) in
  let cps := resize v0 (control_points s) n' in
  do degs' <- set (degrees s) par_dim (p + 1);
  let global_index := u32 (Z.of_nat n' - 1) in
  do inverse_factor <- divS s1 (sofnat (p + 1));
  let variable_offset_factor := (zoff * zp)%Z in
  do '(cps, _) <- for_down (Z.to_nat n_groups) (fun group_index st =>
    let first_index_in_group := u32 (Z.of_nat group_index * starting_point_offset) in
    do st <- for_down (Z.to_nat starting_points_per_group) (fun index_in_group '(cps, gi) =>
      do x <- get cps (Z.to_nat (u32 (first_index_in_group + Z.of_nat index_in_group)
                                 + variable_offset_factor));
      do cps <- set cps (Z.to_nat gi) x;
      Ok (cps, u32 (gi - 1))) st;
    do st <- for_down p (fun k st =>
      let i := k + 1 in
      for_down (Z.to_nat starting_points_per_group) (fun index_in_group '(cps, gi) =>
        let factor := smul (sofnat i) inverse_factor in
        do x <- get cps (Z.to_nat (u32 (first_index_in_group + Z.of_nat index_in_group)
                                   + zoff * Z.of_nat i));
        do y <- get cps (Z.to_nat (u32 (first_index_in_group + Z.of_nat index_in_group)
                                   + zoff * (Z.of_nat i - 1)));
        do cps <- set cps (Z.to_nat gi)
                    (vadd (vscale (ssub s1 factor) x) (vscale factor y));
        Ok (cps, u32 (gi - 1))) st) st;
    for_down (Z.to_nat starting_points_per_group) (fun index_in_group '(cps, gi) =>
      do x <- get cps (Z.to_nat (u32 (first_index_in_group + Z.of_nat index_in_group)));
      do cps <- set cps (Z.to_nat gi) x;
      Ok (cps, u32 (gi - 1))) st) (cps, global_index);
  do offs' <- UpdateIndexOffsets_ degs';
  Ok (mkSpline degs' n' offs' cps).

(** src/bezier_spline.inc:328-370  Evaluate (de Casteljau on a copy) *)
Definition Evaluate (s : spline V) (par_coords : list T) : res V :=
  do '(cps, _) <- for_up 0 (length (degrees s)) (fun par_dim '(cps, ctps_to_consider) =>
    do factor <- get par_coords par_dim;
    let inv_factor := ssub s1 factor in
    do p <- get (degrees s) par_dim;
    do off <- get (index_offsets s) par_dim;
    let ctps_to_consider := ctps_to_consider / (p + 1) in
    do cps <- for_up 0 ctps_to_consider (fun starting_point_id cps =>
      let offset := off * (p + 1) * starting_point_id in
      let step_width := off in
      for_up 0 (p + 1) (fun i cps =>
        for_up 0 (p - i) (fun j cps =>
          do a <- get cps (j * step_width + offset);
          do b <- get cps ((j + 1) * step_width + offset);
          set cps (j * step_width + offset)
            (vadd (vscale inv_factor a) (vscale factor b))) cps) cps) cps;
    Ok (cps, ctps_to_consider)) (control_points s, number_of_control_points s);
  get cps 0.

Section WithTable.
Context (MAXB : nat).

(** src/bezier_spline.inc:229-326  DerivativeWRTParametricDimension.
    [new_degrees[k] -= orders[k]] is unsigned: if it underflows the loop bound and
    the following accesses are meaningless, modelled as [UB]. *)
Definition count_points_nd (nd : list nat) : res nat := count_points nd.

(** global_id_with_new_degrees, src/bezier_spline.inc:262-271 *)
Definition multi_index_of (nd : list nat) (global_id : nat) : res (list nat) :=
  do p0 <- get nd 0;
  do mi <- set (repeat 0 (length nd)) 0 (global_id mod (p0 + 1));
  do '(mi, _) <- for_up 1 (length nd - 1) (fun i_para '(mi, gid) =>
    do pm <- get nd (i_para - 1);
    let gid := gid / (pm + 1) in
    do p <- get nd i_para;
    do mi <- set mi i_para (gid mod (p + 1));
    Ok (mi, gid)) (mi, global_id);
  Ok mi.

Definition DerivativeWRT (s : spline V) (orders : list nat) : res (spline V) :=
  do '(nd, cps) <- for_up 0 (length (degrees s)) (fun i_para_dim '(nd, cps) =>
    do k <- get orders i_para_dim;
    if k =? 0 then Ok (nd, cps) else
    do q <- get nd i_para_dim;
    do _ <- (if q <? k then UB else Ok tt);
    do nd <- set nd i_para_dim (q - k);
    do p <- get (degrees s) i_para_dim;
    do factor <- for_up 1 (k - 1) (fun i f => Ok (smul f (sofnat (p - i)))) (sofnat p);
    do n <- count_points_nd nd;
    do cps <- for_up 0 n (fun i_point cps =>
      do mi <- multi_index_of nd i_point;
      do i_point_index <- GlobalToLocalIndex s mi;
      do '(cps, _) <- for_up 1 k (fun j_point_offset '(cps, mi) =>
        do m <- get mi i_para_dim;
        do mi <- set mi i_para_dim (m + 1);
        do b <- choose MAXB k j_point_offset;
        let local_coefficient :=
          smul (if Nat.even j_point_offset then s1 else sopp s1) (sofN b) in
        do gi <- GlobalToLocalIndex s mi;
        do x <- get cps gi;
        do y <- get cps i_point_index;
        do cps <- set cps i_point_index (vadd y (vscale local_coefficient x));
        Ok (cps, mi)) (cps, mi);
      do y <- get cps i_point_index;
      set cps i_point_index
        (vscale (smul (if Nat.even k then s1 else sopp s1) factor) y)) cps;
    Ok (nd, cps)) (degrees s, control_points s);
  do derivative <- Spline_deg nd;
  do dcps <- for_up 0 (number_of_control_points derivative) (fun i_point dcps =>
    do mi <- LocalToGlobalIndex derivative i_point;
    do gi <- GlobalToLocalIndex s mi;
    do x <- get cps gi;
    set dcps i_point x) (control_points derivative);
  Ok (with_cps derivative dcps).

(** src/bezier_spline.inc:372-387  BasisFunctionContributions *)
Definition BasisFunctionContributions (s : spline V) (par_coords : list T)
  : res (list (list T)) :=
  for_up 0 (length (degrees s)) (fun par_dim factors =>
    do p <- get (degrees s) par_dim;
    do x <- get par_coords par_dim;
    do b <- BernsteinEvaluate MAXB p x;
    set factors par_dim b) (repeat [] (length (degrees s))).

(** src/bezier_spline.inc:389-397  BasisFunctions *)
Definition BasisFunctions (s : spline V) (par_coords : list T) : res (list T) :=
  do factors <- BasisFunctionContributions s par_coords;
  RecursiveCombine factors.

(** accumulation loop of src/bezier_spline.inc:413-420 and 474-481 *)
Definition combine_points (factors : list T) (cps : list V) : res V :=
  for_up 0 (length factors) (fun i acc =>
    do f <- get factors i;
    do c <- get cps i;
    Ok (vadd acc (vscale f c))) v0.

(** src/bezier_spline.inc:399-423  ForwardEvaluate *)
Definition ForwardEvaluate (s : spline V) (par_coords : list T) : res V :=
  do factors <- BasisFunctions s par_coords;
  combine_points factors (control_points s).

(** src/bezier_spline.inc:425-442  BasisFunctionsDerivativeContributions *)
Definition BasisFunctionsDerivativeContributions (s : spline V) (par_coords : list T)
  (nth_derivs : list nat) : res (list (list T)) :=
  for_up 0 (length (degrees s)) (fun par_dim factors =>
    do p <- get (degrees s) par_dim;
    do x <- get par_coords par_dim;
    do k <- get nth_derivs par_dim;
    do b <- BernsteinEvaluateDerivative MAXB p x k;
    set factors par_dim b) (repeat [] (length (degrees s))).

(** src/bezier_spline.inc:444-456  BasisFunctionsDerivatives *)
Definition BasisFunctionsDerivatives (s : spline V) (par_coords : list T)
  (nth_derivs : list nat) : res (list T) :=
  do factors <- BasisFunctionsDerivativeContributions s par_coords nth_derivs;
  RecursiveCombine factors.

(** src/bezier_spline.inc:458-484  EvaluateDerivative *)
Definition EvaluateDerivative (s : spline V) (par_coords : list T)
  (nth_derivs : list nat) : res V :=
  do factors <- BasisFunctionsDerivatives s par_coords nth_derivs;
  combine_points factors (control_points s).

End WithTable.

(** std::vector / std::array equality *)
Fixpoint list_eqb {A} (e : A -> A -> bool) (l m : list A) : bool :=
  match l, m with
  | [], [] => true
  | a :: l', b :: m' => e a b && list_eqb e l' m'
  | _, _ => false
  end.

(** src/bezier_spline.inc:486-498  operator== *)
Definition spline_eqb (s rhs : spline V) : bool :=
  if list_eqb Nat.eqb (degrees rhs) (degrees s)
  then list_eqb veqb (control_points rhs) (control_points s) else false.

(** loop [for i < GetNumberOfControlPoints(): control_points[i] = f(control_points[i])] *)
Definition map_points (f : V -> V) (s : spline V) : res (spline V) :=
  do c <- for_up 0 (number_of_control_points s) (fun i c =>
    do x <- get c i; set c i (f x)) (control_points s);
  Ok (with_cps s c).

(** src/bezier_spline.inc:500-509  operator*=(scalar) (argument not aliased) *)
Definition scale_assign (s : spline V) (c : T) : res (spline V) :=
  map_points (fun x => vscale c x) s.
(** src/bezier_spline.inc:511-520  operator+=(point) *)
Definition shift_assign (s : spline V) (p : V) : res (spline V) :=
  map_points (fun x => vadd x p) s.
(** src/bezier_spline.inc:532-541  operator-=(point) *)
Definition unshift_assign (s : spline V) (p : V) : res (spline V) :=
  map_points (fun x => vsub x p) s.
(** src/bezier_spline.inc:553-563  unary minus: writes into a copy, reads [*this] *)
Definition spline_neg (s : spline V) : res (spline V) :=
  do c <- for_up 0 (number_of_control_points s) (fun i c =>
    do x <- get (control_points s) i; set c i (vopp x)) (control_points s);
  Ok (with_cps s c).
(** src/bezier_spline.inc:522-530, 543-551, 565-573 and the friends of
    src/bezier_spline.hpp (scalar * spline, point + spline, point - spline) *)
Definition spline_shift (s : spline V) (p : V) := shift_assign s p.
Definition spline_unshift (s : spline V) (p : V) := unshift_assign s p.
Definition spline_scale (s : spline V) (c : T) := scale_assign s c.
(** point - spline = -(spline - point) *)
Definition point_minus_spline (p : V) (s : spline V) : res (spline V) :=
  do t <- spline_unshift s p; spline_neg t.

(** [while (target > x.GetDegrees()[par_dim]) x.OrderElevate(par_dim)] *)
Definition elevate_to (fuel : nat) (target par_dim : nat) (x : spline V) : res (spline V) :=
  while_ fuel (fun y => nth par_dim (degrees y) 0 <? target)
    (fun y => OrderElevate y par_dim) x.
Definition elevate_all (fuel : nat) (targets : list nat) (x : spline V) : res (spline V) :=
  for_up 0 (length (degrees x)) (fun par_dim x =>
    do t <- get targets par_dim;
    elevate_to fuel t par_dim x) x.

(** loop [control_points[i] = op(control_points[i], rhs.control_points[i])] *)
Definition combine_assign (op : V -> V -> V) (n : nat) (x rhs : spline V) : res (spline V) :=
  do c <- for_up 0 n (fun i c =>
    do a <- get c i;
    do b <- get (control_points rhs) i;
    set c i (op a b)) (control_points x);
  Ok (with_cps x c).

(** src/bezier_spline.inc:575-615  operator+(spline).  The source recurses with
    swapped operands when [*this] has a larger degree somewhere; [depth] bounds
    that recursion. *)
Fixpoint spline_add_rec (depth fuel : nat) (s rhs : spline V) : res (spline V) :=
  match depth with
  | O => Diverge
  | S depth' =>
    do return_spline <- Spline_deg_points (degrees s) (control_points s);
    do rhs_needs_copy <- for_up 0 (length (degrees s)) (fun par_dim b =>
      do p <- get (degrees s) par_dim;
      do q <- get (degrees rhs) par_dim;
      Ok (b || (q <? p))) false;
    do return_spline <- elevate_all fuel (degrees rhs) return_spline;
    if negb rhs_needs_copy then
      combine_assign vadd (number_of_control_points return_spline) return_spline rhs
    else spline_add_rec depth' fuel rhs return_spline
  end.
Definition spline_add (fuel : nat) (s rhs : spline V) : res (spline V) :=
  spline_add_rec fuel fuel s rhs.

(** src/bezier_spline.inc:617-640  operator+=(spline) *)
Definition spline_add_assign (fuel : nat) (s rhs : spline V) : res (spline V) :=
  do s <- elevate_all fuel (degrees rhs) s;
  do rhs <- elevate_all fuel (degrees s) rhs;
  combine_assign vadd (number_of_control_points s) s rhs.

(** src/bezier_spline.inc:642-674  operator-(spline).  The first loop tests
    [degrees] of [*this], which it never changes. *)
Definition spline_sub (fuel : nat) (s rhs : spline V) : res (spline V) :=
  do return_spline <- Spline_deg_points (degrees s) (control_points s);
  do return_spline <- for_up 0 (length (degrees s)) (fun par_dim r =>
    do q <- get (degrees rhs) par_dim;
    do p <- get (degrees s) par_dim;
    while_ fuel (fun _ => p <? q) (fun y => OrderElevate y par_dim) r) return_spline;
  do rhs <- elevate_all fuel (degrees s) rhs;
  combine_assign vsub (number_of_control_points s) return_spline rhs.

(** src/bezier_spline.inc:676-699  operator-=(spline) *)
Definition spline_sub_assign (fuel : nat) (s rhs : spline V) : res (spline V) :=
  do s <- elevate_all fuel (degrees rhs) s;
  do rhs <- elevate_all fuel (degrees s) rhs;
  combine_assign vsub (number_of_control_points s) s rhs.

(** src/bezier_spline.inc:1323-1416  SplitAtPosition(plane, dimension) *)
Definition SplitAtPosition (s : spline V) (plane : T) (dim : nat) : res (list (spline V)) :=
  if negb (sltb s0 plane && sltb plane s1) then Throw else
  do p <- get (degrees s) dim;
  do off <- get (index_offsets s) dim;
  let ctps_per_layer := number_of_control_points s / (p + 1) in
  let factor := plane in
  let inv_factor := ssub s1 plane in
  let group_offset := off * (p + 1) in
  do '(c1, c2) <- for_up 0 ctps_per_layer (fun start_point_id st =>
    let group_id := start_point_id / off in
    let id_in_group := start_point_id mod off in
    let start := group_id * group_offset + id_in_group in
    for_up 1 p (fun i '(c1, c2) =>
      do c1 <- for_down (p + 1 - i) (fun k c1 =>
        let j := k + i in
        do a <- get c1 (start + (j - 1) * off);
        do b <- get c1 (start + j * off);
        set c1 (start + j * off) (vadd (vscale inv_factor a) (vscale factor b))) c1;
      do x <- get c1 (start + p * off);
      do c2 <- set c2 (start + (p - i) * off) x;
      Ok (c1, c2)) st) (control_points s, control_points s);
  Ok [with_cps s c1; with_cps s c2].

(** std::is_sorted *)
Fixpoint is_sorted (l : list T) : bool :=
  match l with
  | a :: ((b :: _) as t) => negb (sltb b a) && is_sorted t
  | _ => true
  end.

(** src/bezier_spline.inc:1418-1458  SplitAtPosition(planes, dimension) *)
Definition SplitAtPositions (s : spline V) (planes : list T) (dim : nat)
  : res (list (spline V)) :=
  if negb (is_sorted planes) then Throw else
  if length planes =? 0 then Ok [s] else
  do p0 <- get planes 0;
  do split <- SplitAtPosition s p0 dim;
  do x <- get split 0;
  do '(out, split) <- for_up 1 (length planes - 1) (fun i '(out, split) =>
    do pi <- get planes i;
    do pm <- get planes (i - 1);
    do rel <- divS (ssub pi pm) (ssub s1 pm);
    do rest <- get split 1;
    do split <- SplitAtPosition rest rel dim;
    do x <- get split 0;
    Ok (out ++ [x], split)) ([x], split);
  do x <- get split 1;
  Ok (out ++ [x]).

End Generic.

(** ** Products *)
Section Product.
Context (MAXB : nat).
Context {T V1 V2 V3 : Type} {o : SOps T} {o3 : VOps T V3}.
(** operator* of the two control-point types *)
Context (pmul : V1 -> V2 -> V3).

(** src/bezier_spline.inc:60-105  CombineControlPointsForProduct_ (compile-time
    recursion over the parametric dimension: [depth] remaining dimensions;
    [indices] are the indices fixed so far, in order). *)
Fixpoint CombineControlPoints (remaining : nat) (P : spline V1) (Q : spline V2)
  (ctpsIndex : list nat) (factor : T) (indices : list nat) (this : spline V3)
  : res (spline V3) :=
  match remaining with
  | O => UB
  | S rem' =>
    let depth := length indices in
    do k <- get ctpsIndex depth;
    do m <- get (degrees P) depth;
    do n <- get (degrees Q) depth;
    for_up (k - n) (S (min k m) - (k - n)) (fun i this =>
      do cm <- choose MAXB m i;
      do cn <- choose MAXB n (k - i);
      do cmn <- choose MAXB (m + n) k;
      do lFactor <- divS (sofN (cm * cn mod 2 ^ 64)%N) (sofN cmn);
      match rem' with
      | O =>
        let ind_lhs := indices ++ [i] in
        let ind_rhs := map (fun '(a, b) => a - b) (combine ctpsIndex ind_lhs) in
        do c <- ControlPoint this ctpsIndex;
        do a <- ControlPoint P ind_lhs;
        do b <- ControlPoint Q ind_rhs;
        SetControlPoint this ctpsIndex
          (vadd c (vscale lFactor (vscale factor (pmul a b))))
      | S _ => CombineControlPoints rem' P Q ctpsIndex (smul factor lFactor) (indices ++ [i]) this
      end) this
  end.

(** src/bezier_spline.inc:873-906  operator*(spline) *)
Definition spline_mul (s : spline V1) (rhs : spline V2) : res (spline V3) :=
  do pd <- for_up 0 (length (degrees s)) (fun i pd =>
    do a <- get (degrees s) i;
    do b <- get (degrees rhs) i;
    set pd i (a + b)) (repeat 0 (length (degrees s)));
  do r <- Spline_deg pd;
  for_up 0 (number_of_control_points r) (fun i r =>
    do idx <- LocalToGlobalIndex r i;
    CombineControlPoints (length (degrees s)) s rhs idx s1 [] r) r.
End Product.

Section Scalar.
Context (MAXB : nat).
Context {T : Type} {o : SOps T}.

(** Product of scalar-valued splines. *)
Definition spline_mul_ss := spline_mul MAXB (V1 := T) (V2 := T) (V3 := T) smul.

(** The constant-one spline of degree zero,
    src/bezier_spline.inc:736-741 and 1157-1164. *)
Definition const_one (dim : nat) : res (spline T) :=
  Spline_deg_points (repeat 0 dim) [s1].

(** src/bezier_spline.inc:727-760  RaisePower on a scalar-valued spline.
    [fuel] bounds the recursion depth (power/2). *)
Fixpoint RaisePower_rec (fuel : nat) (s : spline T) (power : nat) : res (spline T) :=
  match fuel with
  | O => Diverge
  | S f =>
    if power =? 0 then const_one (length (degrees s))
    else if power =? 1 then Ok s
    else
      do r <- RaisePower_rec f s (power / 2);
      do rr <- spline_mul_ss r r;
      if power mod 2 =? 0 then Ok rr else spline_mul_ss rr s
  end.
Definition RaisePower (s : spline T) (power : nat) : res (spline T) :=
  RaisePower_rec (S power) s power.
End Scalar.

(** ** Operations on Point-valued splines *)
Section Points.
Context {T : Type} {o : SOps T} {d : nat}.

(** src/bezier_spline.inc:701-725  ExtractDimension (point-valued branch) *)
Definition ExtractDimension (s : spline (point T d)) (dimension : nat) : res (spline T) :=
  if d <=? dimension then Throw else
  do e <- Spline_deg (degrees s);
  do c <- for_up 0 (number_of_control_points s) (fun i c =>
    do x <- get (control_points s) i;
    do y <- pget d x dimension;
    set c i y) (control_points e);
  Ok (with_cps e c).

(** std::max / std::min *)
Definition smax (a b : T) : T := if sltb a b then b else a.
Definition smin (a b : T) : T := if sltb b a then b else a.

(** src/bezier_spline.inc:762-783  MaximumCorner and 785-806 MinimumCorner *)
Definition Corner (pick : T -> T -> T) (s : spline (point T d)) : res (point T d) :=
  if number_of_control_points s =? 0 then Throw else
  do m <- get (control_points s) 0;
  for_up 1 (number_of_control_points s - 1) (fun i m =>
    for_up 0 d (fun i_dim m =>
      do c <- get (control_points s) i;
      do a <- pget d m i_dim;
      do b <- pget d c i_dim;
      pset d m i_dim (pick a b)) m) m.
Definition MaximumCorner := Corner smax.
Definition MinimumCorner := Corner smin.

(** src/bezier_spline.inc:808-829  TransposeAndScale *)
Definition TransposeAndScale (s : spline (point T d)) (t sc : point T d)
  : res (spline (point T d)) :=
  do c <- for_up 0 (number_of_control_points s) (fun i c =>
    for_up 0 d (fun i_dim c =>
      do x <- get c i;
      do a <- pget d t i_dim;
      do b <- pget d x i_dim;
      do e <- pget d sc i_dim;
      do x' <- pset d x i_dim (smul (sadd a b) e);
      set c i x') c) (control_points s);
  Ok (with_cps s c).

(** src/bezier_spline.inc:831-848  FitIntoUnitCube *)
Definition FitIntoUnitCube (s : spline (point T d)) : res (spline (point T d)) :=
  do mx <- MaximumCorner s;
  do mn <- MinimumCorner s;
  do sc <- for_up 0 d (fun i_dim sc =>
    do x <- pget d sc i_dim;
    do y <- divS s1 x;
    pset d sc i_dim y) (vsub mx mn);
  TransposeAndScale s (vopp mn) sc.

(** src/bezier_spline.inc:850-871  FitsIntoUnitCube: the loop returns false at the
    first offending coordinate. *)
Definition corners_fit (mx mn : point T d) : res bool :=
  for_up 0 d (fun i_dim b =>
    if negb b then Ok false else
    do a <- pget d mx i_dim;
    do c <- pget d mn i_dim;
    Ok (negb (sltb s1 a || sltb c s0))) true.
Definition FitsIntoUnitCube (s : spline (point T d)) : res bool :=
  do mx <- MaximumCorner s;
  do mn <- MinimumCorner s;
  corners_fit mx mn.
End Points.

(** ** Composition *)
Section Compose.
Context (MAXB : nat).
Context {T V : Type} {o : SOps T} {ov : VOps T V}.

(** One direction of the "Bernstein basis splines",
    src/bezier_spline.inc:1149-1218: [c] is the extracted coordinate spline and
    [ic] its complement ([1 - c] or [w - c]). *)
Definition bernstein_basis_splines (dim_in : nat) (p : nat) (c ic : spline T)
  : res (list (spline T)) :=
  do one <- const_one dim_in;
  (* default-constructed entries of the resized vector *)
  let dflt := mkSpline (repeat 0 dim_in) 0 (repeat 0 dim_in) [] in
  do b <- set (repeat dflt (p + 1)) 0 one;
  do '(b, _) <- for_up 1 p (fun i '(b, m) =>
    do m <- spline_mul_ss MAXB m c;
    do b <- set b i m;
    Ok (b, m)) (b, one);
  do '(b, _) <- for_up 1 p (fun i '(b, m) =>
    do m <- spline_mul_ss MAXB m ic;
    do x <- get b (p - i);
    do x <- spline_mul_ss MAXB x m;
    do b <- set b (p - i) x;
    Ok (b, m)) (b, one);
  for_up 1 (p - 1) (fun i b =>
    do x <- get b (p - i);
    do k <- choose MAXB p i;
    do x <- scale_assign x (sofN k);
    set b (p - i) x) b.

(** All directions; [extract k] is ExtractDimension(k) of the inner spline and
    [inverse] builds the complement. *)
Definition all_basis_splines (outer : spline V) (dim_in : nat)
  (extract : nat -> res (spline T)) (inverse : spline T -> res (spline T))
  : res (list (list (spline T))) :=
  for_up 0 (length (degrees outer)) (fun k bs =>
    do p <- get (degrees outer) k;
    do c <- extract k;
    do ic <- inverse c;
    do b <- bernstein_basis_splines dim_in p c ic;
    set bs k b) (repeat [] (length (degrees outer))).

(** Tensor product for one outer control point, src/bezier_spline.inc:1250-1258
    and 1262-1271. *)
Definition tensor_spline (bs : list (list (spline T))) (idx : list nat) (dim_out : nat)
  : res (spline T) :=
  do b0 <- get bs 0;
  do i0 <- get idx 0;
  do t <- get b0 i0;
  for_up 1 (dim_out - 1) (fun k t =>
    do b <- get bs k;
    do i <- get idx k;
    do x <- get b i;
    spline_mul_ss MAXB t x) t.

Definition sum_degrees (s : spline V) : nat := fold_left Nat.add (degrees s) 0.

(** src/bezier_spline.inc:1079-1302  ComposeNumeratorHelper<false> *)
Definition ComposeNumerator (outer : spline V) (inner_degrees : list nat)
  (extract : nat -> res (spline T)) (inverse : spline T -> res (spline T))
  : res (spline V) :=
  let new_degrees := map (fun p => p * sum_degrees outer) inner_degrees in
  do r <- Spline_deg new_degrees;
  do bs <- all_basis_splines outer (length inner_degrees) extract inverse;
  for_up 0 (number_of_control_points outer) (fun i r =>
    do idx <- LocalToGlobalIndex outer i;
    do t <- tensor_spline bs idx (length (degrees outer));
    do _ <- assert_ (list_eqb Nat.eqb new_degrees (degrees t));
    do c <- for_up 0 (number_of_control_points r) (fun j c =>
      do a <- get c j;
      do b <- get (control_points t) j;
      do q <- get (control_points outer) i;
      set c j (vadd a (vscale b q))) (control_points r);
    Ok (with_cps r c)) r.

(** src/bezier_spline.inc:1079-1302  ComposeNumeratorHelper<true> *)
Definition ComposeNumeratorSensitivity (outer : spline V) (inner_degrees : list nat)
  (extract : nat -> res (spline T)) (inverse : spline T -> res (spline T))
  : res (list (spline T)) :=
  do bs <- all_basis_splines outer (length inner_degrees) extract inverse;
  for_up 0 (number_of_control_points outer) (fun i out =>
    do idx <- LocalToGlobalIndex outer i;
    do t <- tensor_spline bs idx (length (degrees outer));
    Ok (out ++ [t])) [].

(** [1. - extracted_dimension], src/bezier_spline.inc:1186 *)
Definition inverse_poly (c : spline T) : res (spline T) := point_minus_spline s1 c.

(** src/bezier_spline.inc:908-931  Compose(polynomial inner).  The static_assert on
    the dimensions is the typing [point T (length (degrees outer))]; here the
    physical dimension [d] of the inner spline is compared explicitly. *)
Definition Compose {d} (outer : spline V) (inner : spline (point T d)) : res (spline V) :=
  do fits <- FitsIntoUnitCube inner;
  if negb fits then Throw else
  ComposeNumerator outer (degrees inner) (ExtractDimension inner) inverse_poly.

(** src/bezier_spline.inc:933-957  ComposeSensitivity(polynomial inner) *)
Definition ComposeSensitivity {d} (outer : spline V) (inner : spline (point T d))
  : res (list (spline T)) :=
  do fits <- FitsIntoUnitCube inner;
  if negb fits then Throw else
  ComposeNumeratorSensitivity outer (degrees inner) (ExtractDimension inner) inverse_poly.
End Compose.
