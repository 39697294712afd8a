(** Model of class RationalBezierSpline (src/rational_bezier_spline.hpp/.inc) and of the
    members of BezierSpline that take a rational argument. *)
From Coq Require Import Arith List ZArith NArith Bool.
From Verif Require Import Prelude Scalar ModelBasis ModelSpline.
Import ListNotations.

(** Data members, src/rational_bezier_spline.hpp:62-71. *)
Record rspline (T V : Type) : Type := mkR {
  weighted_spline : spline V;
  weight_function : spline T
}.
Arguments mkR {T V}.
Arguments weighted_spline {T V}.
Arguments weight_function {T V}.

Section Rational.
Context {T V : Type} {o : SOps T} {ov : VOps T V}.

(** [point / scalar]: src/point.hpp:127-138 (multiplication by the inverse); for a scalar
    PhysicalPointType the built-in division, which is the same in exact arithmetic. *)
Definition vdiv (v : V) (w : T) : res V := do i <- divS s1 w; Ok (vscale i v).

(** src/rational_bezier_spline.hpp:77-81  CheckSplineCompatibility *)
Definition compatible (r : rspline T V) : bool :=
  list_eqb Nat.eqb (degrees (weighted_spline r)) (degrees (weight_function r)).

(** src/rational_bezier_spline.hpp:123-129  constructor from two splines *)
Definition R_mk (u : spline V) (w : spline T) : res (rspline T V) :=
  do _ <- assert_ (compatible (mkR u w)); Ok (mkR u w).

(** src/rational_bezier_spline.hpp:104-120  constructor from a polynomial spline *)
Definition R_of_spline (s : spline V) : res (rspline T V) :=
  do w <- Spline_deg_points (degrees s) (repeat (s1 : T) (number_of_control_points s));
  R_mk s w.

(** src/rational_bezier_spline.hpp:135-137  constructor from degrees *)
Definition R_deg (deg : list nat) : res (rspline T V) :=
  do u <- Spline_deg deg; do w <- Spline_deg deg; Ok (mkR u w).

(** src/rational_bezier_spline.hpp:140-153  constructor from control points and weights *)
Definition R_deg_points (deg : list nat) (pts : list V) (ws : list T) : res (rspline T V) :=
  do u <- Spline_deg deg;
  do w <- Spline_deg_points deg ws;
  do _ <- assert_ (length pts =? length ws);
  do _ <- assert_ (number_of_control_points u =? length ws);
  do c <- for_up 0 (length (control_points u)) (fun i c =>
    do p <- get pts i;
    do x <- get ws i;
    set c i (vscale x p)) (control_points u);
  R_mk (with_cps u c) w.

(** src/rational_bezier_spline.hpp:196-202  UpdateDegrees *)
Definition R_UpdateDegrees (r : rspline T V) (deg : list nat) : res (rspline T V) :=
  do w <- UpdateDegrees (weight_function r) deg;
  do u <- UpdateDegrees (weighted_spline r) deg;
  R_mk u w.

(** src/rational_bezier_spline.inc:38-46  ControlPoint(std::array) *)
Definition R_ControlPoint (r : rspline T V) (index : list nat) : res V :=
  do p <- ControlPoint (weighted_spline r) index;
  do w <- ControlPoint (weight_function r) index;
  vdiv p w.

(** src/rational_bezier_spline.inc:25-36  ControlPoint(index...).  The braces contain the
    comma-operator fold [(static_cast<IndexingType>(index), ...)], which is the last
    argument; the remaining array entries are value-initialised. *)
Definition comma_fold_indices (index : list nat) : list nat :=
  match index with
  | [] => []
  | _ => last index 0 :: repeat 0 (length index - 1)
  end.
Definition R_ControlPoint_variadic (r : rspline T V) (index : list nat) : res V :=
  R_ControlPoint r (comma_fold_indices index).

(** src/rational_bezier_spline.inc:48-124  WeightedControlPoint and Weight (array versions) *)
Definition R_WeightedControlPoint (r : rspline T V) (index : list nat) : res V :=
  ControlPoint (weighted_spline r) index.
Definition R_Weight (r : rspline T V) (index : list nat) : res T :=
  ControlPoint (weight_function r) index.

(** src/rational_bezier_spline.inc:126-133  Evaluate *)
Definition R_Evaluate (r : rspline T V) (xs : list T) : res V :=
  do p <- Evaluate (weighted_spline r) xs;
  do w <- Evaluate (weight_function r) xs;
  vdiv p w.

Section WithTable.
Context (MAXB : nat).

(** src/rational_bezier_spline.inc:155-185  UnweightedBasisFunctions *)
Definition R_UnweightedBasisFunctions (r : rspline T V) (xs : list T) : res (list T) :=
  do _ <- assert_ (compatible r);
  do factors <- BasisFunctions MAXB (weight_function r) xs;
  do weight_eval <- for_up 0 (length factors) (fun i acc =>
    do f <- get factors i;
    do w <- get (control_points (weight_function r)) i;
    Ok (sadd acc (smul f w))) s0;
  do inv <- divS s1 weight_eval;
  for_up 0 (length factors) (fun i fs => do f <- get fs i; set fs i (smul f inv)) factors.

(** src/rational_bezier_spline.inc:135-153  BasisFunctions *)
Definition R_BasisFunctions (r : rspline T V) (xs : list T) : res (list T) :=
  do _ <- assert_ (compatible r);
  do factors <- R_UnweightedBasisFunctions r xs;
  for_up 0 (length factors) (fun i fs =>
    do f <- get fs i;
    do w <- get (control_points (weight_function r)) i;
    set fs i (smul f w)) factors.

(** src/rational_bezier_spline.inc:196-218  ForwardEvaluate *)
Definition R_ForwardEvaluate (r : rspline T V) (xs : list T) : res V :=
  do _ <- assert_ (compatible r);
  do factors <- BasisFunctions MAXB (weighted_spline r) xs;
  combine_points factors (control_points (weighted_spline r)).

(** The lambdas of src/rational_bezier_spline.inc:231-243 and 337-349  local_ids_ *)
Definition local_ids (nth_derivs : list nat) (req_id : nat) : res (list nat) :=
  do '(ids, _) <- for_up 0 (length nth_derivs) (fun i_pd '(ids, id) =>
    do n <- get nth_derivs i_pd;
    if n =? 0 then Ok (ids, id) else
    let l := id mod (n + 1) in
    do ids <- set ids i_pd l;
    Ok (ids, (id - l) / (n + 1))) (repeat 0 (length nth_derivs), req_id);
  Ok ids.

(** src/rational_bezier_spline.inc:246-259 and 352-365  global_ids_ *)
Definition global_ids (nth_derivs req : list nat) : res nat :=
  do '(id, _) <- for_up 0 (length nth_derivs) (fun i_pd '(id, offset) =>
    do n <- get nth_derivs i_pd;
    if n =? 0 then Ok (id, offset) else
    do q <- get req i_pd;
    Ok (id + offset * q, offset * (n + 1))) (0, 1);
  Ok id.

(** src/rational_bezier_spline.inc:262-270 and 368-376  is_not_subset_ (the early return
    is a flag that stays set) *)
Definition is_not_subset (req_max req : list nat) (dim : nat) : res bool :=
  for_up 0 dim (fun i_pd (b : bool) =>
    if b then Ok true else
    do a <- get req i_pd; do m <- get req_max i_pd; Ok (m <? a)) false.

(** Product of binomial coefficients in std::size_t,
    src/rational_bezier_spline.inc:307-312 and 415-420. *)
Definition binom_product (lhs rhs : list nat) (dim : nat) : res N :=
  for_up 0 dim (fun i_pd (f : N) =>
    do a <- get lhs i_pd; do b <- get rhs i_pd;
    do c <- choose MAXB a b;
    Ok ((f * c) mod 2 ^ 64)%N) 1%N.

(** The double loop of src/rational_bezier_spline.inc:292-321 (points) and 396-432
    (vectors of basis function derivatives), which differ only in the operations on
    the entries: [sub x c y] is [x -= c * y], [scale x] is [x *= inv_w_fact] and [dflt]
    a default-constructed entry. *)
Definition leibniz_loop {X} (dflt : X) (sub : X -> T -> X -> res X) (scale : X -> res X)
  (nth_derivs : list nat) (number_of_derivs : nat) (A : list X) (w : list T)
  : res (list X) :=
  for_up 0 number_of_derivs (fun i_deriv derivs =>
    do lhs <- local_ids nth_derivs i_deriv;
    do a <- get A i_deriv;
    do derivs <- set derivs i_deriv a;
    do derivs <- for_up 1 i_deriv (fun j_deriv derivs =>
      do rhs <- local_ids nth_derivs j_deriv;
      do skip <- is_not_subset lhs rhs (length nth_derivs);
      if skip then Ok derivs else
      do b <- binom_product lhs rhs (length nth_derivs);
      do wj <- get w j_deriv;
      do y <- get derivs (i_deriv - j_deriv);
      do x <- get derivs i_deriv;
      do x <- sub x (smul (sofN b) wj) y;
      set derivs i_deriv x) derivs;
    do x <- get derivs i_deriv;
    do x <- scale x;
    set derivs i_deriv x) (repeat dflt number_of_derivs).

(** src/rational_bezier_spline.inc:220-322  EvaluateDerivative *)
Definition R_EvaluateDerivative (r : rspline T V) (xs : list T) (nth_derivs : list nat)
  : res V :=
  do g <- global_ids nth_derivs nth_derivs;
  let number_of_derivs := g + 1 in
  do '(A, w) <- for_up 0 number_of_derivs (fun i '(A, w) =>
    do req <- local_ids nth_derivs i;
    do a <- EvaluateDerivative MAXB (weighted_spline r) xs req;
    do A <- set A i a;
    do b <- EvaluateDerivative MAXB (weight_function r) xs req;
    do w <- set w i b;
    Ok (A, w)) (repeat v0 number_of_derivs, repeat s0 number_of_derivs);
  do w0 <- get w 0;
  do inv <- divS s1 w0;
  do derivs <- leibniz_loop v0 (fun x c y => Ok (vsub x (vscale c y)))
    (fun x => Ok (vscale inv x)) nth_derivs number_of_derivs A w;
  get derivs (number_of_derivs - 1).

(** src/rational_bezier_spline.inc:324-435  BasisFunctionsDerivatives *)
Definition R_BasisFunctionsDerivatives (r : rspline T V) (xs : list T)
  (nth_derivs : list nat) : res (list T) :=
  do g <- global_ids nth_derivs nth_derivs;
  let number_of_derivs := g + 1 in
  let n_basis := number_of_control_points (weighted_spline r) in
  do '(A, w) <- for_up 0 number_of_derivs (fun i '(A, w) =>
    do req <- local_ids nth_derivs i;
    do a <- BasisFunctionsDerivatives MAXB (weighted_spline r) xs req;
    do A <- set A i a;
    for_up 0 n_basis (fun i_basis '(A, w) =>
      do weight <- get (control_points (weight_function r)) i_basis;
      do row <- get A i;
      do x <- get row i_basis;
      do wi <- get w i;
      do w <- set w i (sadd wi (smul weight x));
      do row <- set row i_basis (smul x weight);
      do A <- set A i row;
      Ok (A, w)) (A, w)) (repeat [] number_of_derivs, repeat s0 number_of_derivs);
  do w0 <- get w 0;
  do inv <- divS s1 w0;
  do derivs <- leibniz_loop []
    (fun x c y => for_up 0 n_basis (fun i x =>
       do a <- get x i; do b <- get y i; set x i (ssub a (smul c b))) x)
    (fun x => for_up 0 n_basis (fun i x => do a <- get x i; set x i (smul a inv)) x)
    nth_derivs number_of_derivs A w;
  get derivs (number_of_derivs - 1).
End WithTable.

(** src/rational_bezier_spline.inc:437-448  OrderElevateAlongParametricDimension *)
Definition R_OrderElevate (r : rspline T V) (par_dim : nat) : res (rspline T V) :=
  do u <- OrderElevate (weighted_spline r) par_dim;
  do w <- OrderElevate (weight_function r) par_dim;
  R_mk u w.

(** src/rational_bezier_spline.inc:450-464  SplitAtPosition(plane, dimension) *)
Definition R_SplitAtPosition (r : rspline T V) (plane : T) (dim : nat)
  : res (list (rspline T V)) :=
  do us <- SplitAtPosition (weighted_spline r) plane dim;
  do ws <- SplitAtPosition (weight_function r) plane dim;
  do u0 <- get us 0; do w0 <- get ws 0;
  do u1 <- get us 1; do w1 <- get ws 1;
  do a <- R_mk u0 w0;
  do b <- R_mk u1 w1;
  Ok [a; b].

(** src/rational_bezier_spline.inc:466-506  SplitAtPosition(planes, dimension) *)
Definition R_SplitAtPositions (r : rspline T V) (planes : list T) (dim : nat)
  : res (list (rspline T V)) :=
  if negb (is_sorted planes) then Throw else
  if length planes =? 0 then Ok [r] else
  do p0 <- get planes 0;
  do split <- R_SplitAtPosition r p0 dim;
  do x <- get split 0;
  do '(out, split) <- for_up 1 (length planes - 1) (fun i '(out, split) =>
    do pi <- get planes i;
    do pm <- get planes (i - 1);
    do rel <- divS (ssub pi pm) (ssub s1 pm);
    do rest <- get split 1;
    do split <- R_SplitAtPosition rest rel dim;
    do x <- get split 0;
    Ok (out ++ [x], split)) ([x], split);
  do x <- get split 1;
  Ok (out ++ [x]).

(** src/rational_bezier_spline.inc:548-559  operator*=(scalar) *)
Definition R_scale_assign (r : rspline T V) (c : T) : res (rspline T V) :=
  do u <- scale_assign (weighted_spline r) c; R_mk u (weight_function r).
(** src/rational_bezier_spline.inc:561-569  operator*(scalar) *)
Definition R_scale (r : rspline T V) (c : T) : res (rspline T V) :=
  do u <- spline_scale (weighted_spline r) c; R_mk u (weight_function r).

(** the loops of src/rational_bezier_spline.inc:577-581 and 608-612 *)
Definition R_shift_loop (op : V -> V -> V) (r : rspline T V) (p : V) : res (spline V) :=
  do c <- for_up 0 (number_of_control_points (weighted_spline r)) (fun i c =>
    do x <- get c i;
    do w <- get (control_points (weight_function r)) i;
    set c i (op x (vscale w p))) (control_points (weighted_spline r));
  Ok (with_cps (weighted_spline r) c).
(** src/rational_bezier_spline.inc:571-586  operator+=(point) *)
Definition R_shift_assign (r : rspline T V) (p : V) : res (rspline T V) :=
  do u <- R_shift_loop vadd r p; R_mk u (weight_function r).
(** src/rational_bezier_spline.inc:588-600  operator+(point) *)
Definition R_shift (r : rspline T V) (p : V) : res (rspline T V) :=
  do r <- R_mk (weighted_spline r) (weight_function r); R_shift_assign r p.
(** src/rational_bezier_spline.inc:602-614  operator-=(point), without the final check *)
Definition R_unshift_assign (r : rspline T V) (p : V) : res (rspline T V) :=
  do u <- R_shift_loop vsub r p; Ok (mkR u (weight_function r)).
(** src/rational_bezier_spline.inc:616-626  operator-(point) *)
Definition R_unshift (r : rspline T V) (p : V) : res (rspline T V) :=
  do r <- R_mk (weighted_spline r) (weight_function r); R_unshift_assign r p.
(** src/rational_bezier_spline.inc:628-636  unary minus *)
Definition R_neg (r : rspline T V) : res (rspline T V) :=
  do u <- spline_neg (weighted_spline r); R_mk u (weight_function r).

Section Arith.
Context (MAXB fuel : nat).

(** point-valued * scalar-valued and scalar-valued * point-valued spline products *)
Definition spline_mul_vs := spline_mul MAXB (V1 := V) (V2 := T) (V3 := V) (fun p c => vscale c p).
Definition spline_mul_sv := spline_mul MAXB (V1 := T) (V2 := V) (V3 := V) (fun c p => vscale c p).

(** src/rational_bezier_spline.inc:638-653  operator+(rational) *)
Definition R_add (r rhs : rspline T V) : res (rspline T V) :=
  if spline_eqb (weight_function r) (weight_function rhs) then
    do u <- spline_add fuel (weighted_spline r) (weighted_spline rhs);
    R_mk u (weight_function r)
  else
    do a <- spline_mul_vs (weighted_spline r) (weight_function rhs);
    do b <- spline_mul_sv (weight_function r) (weighted_spline rhs);
    do u <- spline_add fuel a b;
    do w <- spline_mul_ss MAXB (weight_function r) (weight_function rhs);
    R_mk u w.

(** src/rational_bezier_spline.inc:655-674  operator+=(rational) *)
Definition R_add_assign (r rhs : rspline T V) : res (rspline T V) :=
  if spline_eqb (weight_function r) (weight_function rhs) then
    do u <- spline_add_assign fuel (weighted_spline r) (weighted_spline rhs);
    Ok (mkR u (weight_function r))
  else
    do u <- spline_mul_vs (weighted_spline r) (weight_function rhs);
    do b <- spline_mul_sv (weight_function r) (weighted_spline rhs);
    do u <- spline_add_assign fuel u b;
    do w <- spline_mul_ss MAXB (weight_function r) (weight_function rhs);
    R_mk u w.

(** src/rational_bezier_spline.inc:676-691  operator-(rational) *)
Definition R_sub (r rhs : rspline T V) : res (rspline T V) :=
  if spline_eqb (weight_function r) (weight_function rhs) then
    do u <- spline_sub fuel (weighted_spline r) (weighted_spline rhs);
    R_mk u (weight_function r)
  else
    do a <- spline_mul_vs (weighted_spline r) (weight_function rhs);
    do b <- spline_mul_sv (weight_function r) (weighted_spline rhs);
    do u <- spline_sub fuel a b;
    do w <- spline_mul_ss MAXB (weight_function r) (weight_function rhs);
    R_mk u w.

(** src/rational_bezier_spline.inc:693-712  operator-=(rational) *)
Definition R_sub_assign (r rhs : rspline T V) : res (rspline T V) :=
  if spline_eqb (weight_function r) (weight_function rhs) then
    do u <- spline_sub_assign fuel (weighted_spline r) (weighted_spline rhs);
    Ok (mkR u (weight_function r))
  else
    do u <- spline_mul_vs (weighted_spline r) (weight_function rhs);
    do b <- spline_mul_sv (weight_function r) (weighted_spline rhs);
    do u <- spline_sub_assign fuel u b;
    do w <- spline_mul_ss MAXB (weight_function r) (weight_function rhs);
    R_mk u w.

(** One pass of the inner loop of src/rational_bezier_spline.inc:531-542. *)
Definition R_derivative_step (i_para_dim : nat) (r : rspline T V) : res (rspline T V) :=
  do order_ <- set (repeat 0 (length (degrees (weighted_spline r)))) i_para_dim 1;
  do du <- DerivativeWRT MAXB (weighted_spline r) order_;
  do a <- spline_mul_vs du (weight_function r);
  do dw <- DerivativeWRT MAXB (weight_function r) order_;
  do b <- spline_mul_sv dw (weighted_spline r);
  do u <- spline_sub fuel a b;
  do u <- OrderElevate u i_para_dim;
  do w <- spline_mul_ss MAXB (weight_function r) (weight_function r);
  R_mk u w.

(** src/rational_bezier_spline.inc:508-546  DerivativeWRTParametricDimension *)
Definition R_DerivativeWRT (r : rspline T V) (orders : list nat) : res (rspline T V) :=
  for_up 0 (length (degrees (weighted_spline r))) (fun i_para_dim r =>
    do k <- get orders i_para_dim;
    for_up 0 k (fun _ r => R_derivative_step i_para_dim r) r) r.
End Arith.
End Rational.

(** src/rational_bezier_spline.inc:714-724  operator*(rational); [pmul] is the product of
    the control-point types. *)
Definition R_mul (MAXB : nat) {T V1 V2 V3 : Type} {o : SOps T} {o3 : VOps T V3}
  (pmul : V1 -> V2 -> V3) (r : rspline T V1) (rhs : rspline T V2) : res (rspline T V3) :=
  do u <- spline_mul MAXB pmul (weighted_spline r) (weighted_spline rhs);
  do w <- spline_mul_ss MAXB (weight_function r) (weight_function rhs);
  R_mk u w.

Section Points.
Context {T : Type} {o : SOps T} {d : nat}.

(** src/rational_bezier_spline.inc:726-733  ExtractDimension: a coordinate of the numerator *)
Definition R_ExtractDimension (r : rspline T (point T d)) (k : nat) : res (spline T) :=
  ExtractDimension (weighted_spline r) k.

(** src/rational_bezier_spline.inc:834-859 MinimumCorner and 861-886 MaximumCorner *)
Definition R_Corner (pick : T -> T -> T) (r : rspline T (point T d)) : res (point T d) :=
  if number_of_control_points (weighted_spline r) =? 0 then Throw else
  do i0 <- LocalToGlobalIndex (weight_function r) 0;
  do m <- R_ControlPoint r i0;
  for_up 1 (number_of_control_points (weighted_spline r) - 1) (fun i m =>
    do p <- get (control_points (weighted_spline r)) i;
    do w <- get (control_points (weight_function r)) i;
    do c <- vdiv p w;
    for_up 0 d (fun i_dim m =>
      do a <- pget d m i_dim;
      do b <- pget d c i_dim;
      pset d m i_dim (pick a b)) m) m.
Definition R_MaximumCorner := R_Corner smax.
Definition R_MinimumCorner := R_Corner smin.

(** src/rational_bezier_spline.inc:811-832  FitsIntoUnitCube *)
Definition R_FitsIntoUnitCube (r : rspline T (point T d)) : res bool :=
  do mx <- R_MaximumCorner r;
  do mn <- R_MinimumCorner r;
  corners_fit mx mn.
End Points.

(** ** Composition with rational splines *)
Section Compose.
Context (MAXB fuel : nat).
Context {T V : Type} {o : SOps T} {ov : VOps T V} {d : nat}.

(** [weight - extracted_dimension], src/bezier_spline.inc:1183 *)
Definition inverse_rational (w c : spline T) : res (spline T) := spline_sub fuel w c.

(** ComposeNumeratorSpline / ComposeNumeratorSensitivity with a rational inner spline *)
Definition ComposeNumerator_R {V} {ov : VOps T V} (outer : spline V) (inner : rspline T (point T d))
  : res (spline V) :=
  ComposeNumerator MAXB outer (degrees (weighted_spline inner)) (R_ExtractDimension inner)
    (inverse_rational (weight_function inner)).
Definition ComposeNumeratorSensitivity_R {V} (outer : spline V)
  (inner : rspline T (point T d)) : res (list (spline T)) :=
  ComposeNumeratorSensitivity MAXB outer (degrees (weighted_spline inner)) (R_ExtractDimension inner)
    (inverse_rational (weight_function inner)).

(** src/bezier_spline.inc:1304-1321  ComposeDenominatorSpline *)
Definition ComposeDenominator {V} (outer : spline V) (inner : rspline T (point T d)) : res (spline T) :=
  RaisePower MAXB (weight_function inner) (sum_degrees outer).

(** src/bezier_spline.inc:959-986  polynomial outer, rational inner *)
Definition Compose_PR (outer : spline V) (inner : rspline T (point T d)) : res (rspline T V) :=
  do fits <- R_FitsIntoUnitCube inner;
  if negb fits then Throw else
  do u <- ComposeNumerator_R outer inner;
  do w <- ComposeDenominator outer inner;
  R_mk u w.

(** src/bezier_spline.inc:988-1034 *)
Definition ComposeSensitivity_PR (outer : spline V) (inner : rspline T (point T d))
  : res (list (rspline T T)) :=
  do fits <- R_FitsIntoUnitCube inner;
  if negb fits then Throw else
  do us <- ComposeNumeratorSensitivity_R outer inner;
  do w <- ComposeDenominator outer inner;
  for_up 0 (number_of_control_points outer) (fun i out =>
    do u <- get us i; do r <- R_mk u w; Ok (out ++ [r])) [].

(** src/rational_bezier_spline.hpp:446-460  rational outer, polynomial inner *)
Definition Compose_RP (outer : rspline T V) (inner : spline (point T d)) : res (rspline T V) :=
  do u <- Compose MAXB (weighted_spline outer) inner;
  do w <- Compose MAXB (weight_function outer) inner;
  R_mk u w.

(** the loop of src/rational_bezier_spline.inc:762-770 and 801-809 *)
Definition scale_sensitivities (outer : rspline T V) (nums : list (spline T)) (den : spline T)
  : res (list (rspline T T)) :=
  for_up 0 (length nums) (fun i out =>
    do n <- get nums i;
    do w <- get (control_points (weight_function outer)) i;
    do u <- spline_scale n w;
    do r <- R_mk u den;
    Ok (out ++ [r])) [].

(** src/rational_bezier_spline.inc:735-772 *)
Definition ComposeSensitivity_RP (outer : rspline T V) (inner : spline (point T d))
  : res (list (rspline T T)) :=
  do nums <- ComposeSensitivity MAXB (weighted_spline outer) inner;
  do den <- Compose MAXB (weight_function outer) inner;
  scale_sensitivities outer nums den.

(** src/rational_bezier_spline.hpp:502-521  rational outer, rational inner; the inner
    spline is not tested with FitsIntoUnitCube *)
Definition Compose_RR (outer : rspline T V) (inner : rspline T (point T d)) : res (rspline T V) :=
  do u <- ComposeNumerator_R (weighted_spline outer) inner;
  do w <- ComposeNumerator_R (weight_function outer) inner;
  R_mk u w.

(** src/rational_bezier_spline.inc:774-809 *)
Definition ComposeSensitivity_RR (outer : rspline T V) (inner : rspline T (point T d))
  : res (list (rspline T T)) :=
  do nums <- ComposeNumeratorSensitivity_R (weighted_spline outer) inner;
  do den <- ComposeNumerator_R (weight_function outer) inner;
  scale_sensitivities outer nums den.
End Compose.
