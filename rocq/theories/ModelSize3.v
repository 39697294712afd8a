(** Sizes and indices in 64 bits, continued: the rational class (src/rational_bezier_spline.hpp/.inc) and
    compositions with rational splines (src/bezier_spline.inc).  Same conventions as ModelSize2.v.  [limit] is
    the max_size() of the vector of numerators and [limit_w] that of the vector of weights; the compositions
    use one limit, as ModelSize2.v does. *)
From Coq Require Import Arith Lia List ZArith NArith Bool.
From Verif Require Import Prelude Scalar ModelBasis ModelPoint ModelSpline ModelRational ModelSize ModelSize2.
Import ListNotations.

Section Rational.
Context (limit limit_w : nat).
Context {T V : Type} {o : SOps T} {ov : VOps T V}.

(** src/rational_bezier_spline.hpp:104-120  constructor from a polynomial spline *)
Definition R_of_spline_64 (s : spline V) : res (rspline T V) :=
  do w <- Spline_deg_points_64 (degrees s) (repeat (s1 : T) (number_of_control_points s));
  R_mk s w.

(** src/rational_bezier_spline.hpp:135-137  constructor from degrees *)
Definition R_deg_64 (deg : list nat) : res (rspline T V) :=
  do u <- Spline_deg_64 limit deg; do w <- Spline_deg_64 limit_w deg; Ok (mkR u w).

(** src/rational_bezier_spline.hpp:140-153  constructor from control points and weights *)
Definition R_deg_points_64 (deg : list nat) (pts : list V) (ws : list T) : res (rspline T V) :=
  do u <- Spline_deg_64 limit deg;
  do w <- Spline_deg_points_64 deg ws;
  do _ <- assert_ (length pts =? length ws);
  do _ <- assert_ (number_of_control_points u =? length ws);
  do c <- for_up 0 (length (control_points u)) (fun i c =>
    do p <- get pts i;
    do x <- get ws i;
    set c i (vscale x p)) (control_points u);
  R_mk (with_cps u c) w.

(** src/rational_bezier_spline.hpp:196-202  UpdateDegrees *)
Definition R_UpdateDegrees_64 (r : rspline T V) (deg : list nat) : res (rspline T V) :=
  do w <- UpdateDegrees_64 limit_w (weight_function r) deg;
  do u <- UpdateDegrees_64 limit (weighted_spline r) deg;
  R_mk u w.

(** src/rational_bezier_spline.inc:38-46  ControlPoint(std::array) *)
Definition R_ControlPoint_64 (r : rspline T V) (index : list nat) : res V :=
  do p <- ControlPoint_64 (weighted_spline r) index;
  do w <- ControlPoint_64 (weight_function r) index;
  vdiv p w.

(** src/rational_bezier_spline.inc:126-133  Evaluate *)
Definition R_Evaluate_64 (r : rspline T V) (xs : list T) : res V :=
  do p <- Evaluate_64 (weighted_spline r) xs;
  do w <- Evaluate_64 (weight_function r) xs;
  vdiv p w.

(** src/rational_bezier_spline.inc:437-448  OrderElevateAlongParametricDimension *)
Definition R_OrderElevate_64 (r : rspline T V) (par_dim : nat) : res (rspline T V) :=
  do u <- OrderElevate_64 limit (weighted_spline r) par_dim;
  do w <- OrderElevate_64 limit_w (weight_function r) par_dim;
  R_mk u w.

(** src/rational_bezier_spline.inc:450-464  SplitAtPosition(plane, dimension) *)
Definition R_SplitAtPosition_64 (r : rspline T V) (plane : T) (dim : nat)
  : res (list (rspline T V)) :=
  do us <- SplitAtPosition_64 (weighted_spline r) plane dim;
  do ws <- SplitAtPosition_64 (weight_function r) plane dim;
  do u0 <- get us 0; do w0 <- get ws 0;
  do u1 <- get us 1; do w1 <- get ws 1;
  do a <- R_mk u0 w0;
  do b <- R_mk u1 w1;
  Ok [a; b].

(** src/rational_bezier_spline.inc:466-506  SplitAtPosition(planes, dimension) *)
Definition R_SplitAtPositions_64 (r : rspline T V) (planes : list T) (dim : nat)
  : res (list (rspline T V)) :=
  if negb (is_sorted planes) then Throw else
  if length planes =? 0 then Ok [r] else
  do p0 <- get planes 0;
  do split <- R_SplitAtPosition_64 r p0 dim;
  do x <- get split 0;
  do '(out, split) <- for_up 1 (length planes - 1) (fun i '(out, split) =>
    do pi <- get planes i;
    do pm <- get planes (i - 1);
    do rel <- divS (ssub pi pm) (ssub s1 pm);
    do rest <- get split 1;
    do split <- R_SplitAtPosition_64 rest rel dim;
    do x <- get split 0;
    Ok (out ++ [x], split)) ([x], split);
  do x <- get split 1;
  Ok (out ++ [x]).

Section Arith.
Context (MAXB fuel : nat).

Definition spline_mul_vs_64 := spline_mul_64 limit MAXB (V1 := V) (V2 := T) (V3 := V) (fun p c => vscale c p).
Definition spline_mul_sv_64 := spline_mul_64 limit MAXB (V1 := T) (V2 := V) (V3 := V) (fun c p => vscale c p).

(** src/rational_bezier_spline.inc:638-653  operator+(rational) *)
Definition R_add_64 (r rhs : rspline T V) : res (rspline T V) :=
  if spline_eqb (weight_function r) (weight_function rhs) then
    do u <- spline_add_64 limit fuel (weighted_spline r) (weighted_spline rhs);
    R_mk u (weight_function r)
  else
    do a <- spline_mul_vs_64 (weighted_spline r) (weight_function rhs);
    do b <- spline_mul_sv_64 (weight_function r) (weighted_spline rhs);
    do u <- spline_add_64 limit fuel a b;
    do w <- spline_mul_ss_64 limit_w MAXB (weight_function r) (weight_function rhs);
    R_mk u w.

(** src/rational_bezier_spline.inc:655-674  operator+=(rational) *)
Definition R_add_assign_64 (r rhs : rspline T V) : res (rspline T V) :=
  if spline_eqb (weight_function r) (weight_function rhs) then
    do u <- spline_add_assign_64 limit fuel (weighted_spline r) (weighted_spline rhs);
    Ok (mkR u (weight_function r))
  else
    do u <- spline_mul_vs_64 (weighted_spline r) (weight_function rhs);
    do b <- spline_mul_sv_64 (weight_function r) (weighted_spline rhs);
    do u <- spline_add_assign_64 limit fuel u b;
    do w <- spline_mul_ss_64 limit_w MAXB (weight_function r) (weight_function rhs);
    R_mk u w.

(** src/rational_bezier_spline.inc:676-691  operator-(rational) *)
Definition R_sub_64 (r rhs : rspline T V) : res (rspline T V) :=
  if spline_eqb (weight_function r) (weight_function rhs) then
    do u <- spline_sub_64 limit fuel (weighted_spline r) (weighted_spline rhs);
    R_mk u (weight_function r)
  else
    do a <- spline_mul_vs_64 (weighted_spline r) (weight_function rhs);
    do b <- spline_mul_sv_64 (weight_function r) (weighted_spline rhs);
    do u <- spline_sub_64 limit fuel a b;
    do w <- spline_mul_ss_64 limit_w MAXB (weight_function r) (weight_function rhs);
    R_mk u w.

(** src/rational_bezier_spline.inc:693-712  operator-=(rational) *)
Definition R_sub_assign_64 (r rhs : rspline T V) : res (rspline T V) :=
  if spline_eqb (weight_function r) (weight_function rhs) then
    do u <- spline_sub_assign_64 limit fuel (weighted_spline r) (weighted_spline rhs);
    Ok (mkR u (weight_function r))
  else
    do u <- spline_mul_vs_64 (weighted_spline r) (weight_function rhs);
    do b <- spline_mul_sv_64 (weight_function r) (weighted_spline rhs);
    do u <- spline_sub_assign_64 limit fuel u b;
    do w <- spline_mul_ss_64 limit_w MAXB (weight_function r) (weight_function rhs);
    R_mk u w.

(** One pass of the inner loop of src/rational_bezier_spline.inc:531-542. *)
Definition R_derivative_step_64 (i_para_dim : nat) (r : rspline T V) : res (rspline T V) :=
  do order_ <- set (repeat 0 (length (degrees (weighted_spline r)))) i_para_dim 1;
  do du <- DerivativeWRT_64 limit MAXB (weighted_spline r) order_;
  do a <- spline_mul_vs_64 du (weight_function r);
  do dw <- DerivativeWRT_64 limit_w MAXB (weight_function r) order_;
  do b <- spline_mul_sv_64 dw (weighted_spline r);
  do u <- spline_sub_64 limit fuel a b;
  do u <- OrderElevate_64 limit u i_para_dim;
  do w <- spline_mul_ss_64 limit_w MAXB (weight_function r) (weight_function r);
  R_mk u w.

(** src/rational_bezier_spline.inc:508-546  DerivativeWRTParametricDimension *)
Definition R_DerivativeWRT_64 (r : rspline T V) (orders : list nat) : res (rspline T V) :=
  for_up 0 (length (degrees (weighted_spline r))) (fun i_para_dim r =>
    do k <- get orders i_para_dim;
    for_up 0 k (fun _ r => R_derivative_step_64 i_para_dim r) r) r.
End Arith.
End Rational.

(** src/rational_bezier_spline.inc:714-724  operator*(rational) *)
Definition R_mul_64 (limit limit_w MAXB : nat) {T V1 V2 V3 : Type} {o : SOps T} {o3 : VOps T V3}
  (pmul : V1 -> V2 -> V3) (r : rspline T V1) (rhs : rspline T V2) : res (rspline T V3) :=
  do u <- spline_mul_64 limit MAXB pmul (weighted_spline r) (weighted_spline rhs);
  do w <- spline_mul_ss_64 limit_w MAXB (weight_function r) (weight_function rhs);
  R_mk u w.

Section Points.
Context (limit : nat) {T : Type} {o : SOps T} {d : nat}.

(** src/rational_bezier_spline.inc:726-733  ExtractDimension *)
Definition R_ExtractDimension_64 (r : rspline T (point T d)) (k : nat) : res (spline T) :=
  ExtractDimension_64 limit (weighted_spline r) k.

(** src/rational_bezier_spline.inc:834-859 MinimumCorner and 861-886 MaximumCorner *)
Definition R_Corner_64 (pick : T -> T -> T) (r : rspline T (point T d)) : res (point T d) :=
  if number_of_control_points (weighted_spline r) =? 0 then Throw else
  do i0 <- LocalToGlobalIndex_64 (weight_function r) 0;
  do m <- R_ControlPoint_64 r i0;
  for_up 1 (number_of_control_points (weighted_spline r) - 1) (fun i m =>
    do p <- get (control_points (weighted_spline r)) i;
    do w <- get (control_points (weight_function r)) i;
    do c <- vdiv p w;
    for_up 0 d (fun i_dim m =>
      do a <- pget d m i_dim;
      do b <- pget d c i_dim;
      pset d m i_dim (pick a b)) m) m.

(** src/rational_bezier_spline.inc:811-832  FitsIntoUnitCube *)
Definition R_FitsIntoUnitCube_64 (r : rspline T (point T d)) : res bool :=
  do mx <- R_Corner_64 smax r;
  do mn <- R_Corner_64 smin r;
  corners_fit mx mn.
End Points.

(** ** Composition with rational splines *)
Section Compose.
Context (limit MAXB fuel : nat).
Context {T V : Type} {o : SOps T} {ov : VOps T V} {d : nat}.

(** [weight - extracted_dimension], src/bezier_spline.inc:1183 *)
Definition inverse_rational_64 (w c : spline T) : res (spline T) := spline_sub_64 limit fuel w c.

(** ComposeNumeratorSpline / ComposeNumeratorSensitivity with a rational inner spline *)
Definition ComposeNumerator_R_64 {V} {ov : VOps T V} (outer : spline V) (inner : rspline T (point T d))
  : res (spline V) :=
  ComposeNumerator_64 limit MAXB outer (degrees (weighted_spline inner)) (R_ExtractDimension_64 limit inner)
    (inverse_rational_64 (weight_function inner)).
Definition ComposeNumeratorSensitivity_R_64 {V} (outer : spline V)
  (inner : rspline T (point T d)) : res (list (spline T)) :=
  ComposeNumeratorSensitivity_64 limit MAXB outer (degrees (weighted_spline inner)) (R_ExtractDimension_64 limit inner)
    (inverse_rational_64 (weight_function inner)).

(** src/bezier_spline.inc:1304-1321  ComposeDenominatorSpline *)
Definition ComposeDenominator_64 {V} (outer : spline V) (inner : rspline T (point T d)) : res (spline T) :=
  RaisePower_64 limit MAXB (weight_function inner) (sum_degrees_64 outer).

(** src/bezier_spline.inc:959-986  polynomial outer, rational inner *)
Definition Compose_PR_64 (outer : spline V) (inner : rspline T (point T d)) : res (rspline T V) :=
  do fits <- R_FitsIntoUnitCube_64 inner;
  if negb fits then Throw else
  do u <- ComposeNumerator_R_64 outer inner;
  do w <- ComposeDenominator_64 outer inner;
  R_mk u w.

(** src/bezier_spline.inc:988-1034 *)
Definition ComposeSensitivity_PR_64 (outer : spline V) (inner : rspline T (point T d))
  : res (list (rspline T T)) :=
  do fits <- R_FitsIntoUnitCube_64 inner;
  if negb fits then Throw else
  do us <- ComposeNumeratorSensitivity_R_64 outer inner;
  do w <- ComposeDenominator_64 outer inner;
  for_up 0 (number_of_control_points outer) (fun i out =>
    do u <- get us i; do r <- R_mk u w; Ok (out ++ [r])) [].

(** src/rational_bezier_spline.hpp:446-460  rational outer, polynomial inner *)
Definition Compose_RP_64 (outer : rspline T V) (inner : spline (point T d)) : res (rspline T V) :=
  do u <- Compose_64 limit MAXB (weighted_spline outer) inner;
  do w <- Compose_64 limit MAXB (weight_function outer) inner;
  R_mk u w.

(** src/rational_bezier_spline.inc:735-772 *)
Definition ComposeSensitivity_RP_64 (outer : rspline T V) (inner : spline (point T d))
  : res (list (rspline T T)) :=
  do nums <- ComposeSensitivity_64 limit MAXB (weighted_spline outer) inner;
  do den <- Compose_64 limit MAXB (weight_function outer) inner;
  scale_sensitivities outer nums den.

(** src/rational_bezier_spline.hpp:502-521  rational outer, rational inner *)
Definition Compose_RR_64 (outer : rspline T V) (inner : rspline T (point T d)) : res (rspline T V) :=
  do u <- ComposeNumerator_R_64 (weighted_spline outer) inner;
  do w <- ComposeNumerator_R_64 (weight_function outer) inner;
  R_mk u w.

(** src/rational_bezier_spline.inc:774-809 *)
Definition ComposeSensitivity_RR_64 (outer : rspline T V) (inner : rspline T (point T d))
  : res (list (rspline T T)) :=
  do nums <- ComposeNumeratorSensitivity_R_64 (weighted_spline outer) inner;
  do den <- ComposeNumerator_R_64 (weight_function outer) inner;
  scale_sensitivities outer nums den.
End Compose.
