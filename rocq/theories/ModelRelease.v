(** The program built with NDEBUG: the same functions without their assertions.

    The definitions are those of ModelBasis.v, ModelSpline.v, ModelRational.v, ModelScalar.v, ModelBase64.v and ModelAD.v that
    contain an [assert] or call a function that does, with the assertion left out; all other functions are the
    same in both builds.  [choose_release] is the source for n < 2^16 and i < 2^31 only: larger arguments wrap around in unsigned
    arithmetic (the assertion excludes them in a debug build).  Assertions: src/bezier_spline.hpp:206, src/bezier_spline.inc:1285,
    src/rational_bezier_spline.hpp:119,128,145,146,152,200, src/rational_bezier_spline.inc:141,161,202,446,557,584,670,707,
    src/utils/fastbinomialcoefficient.hpp:65, src/utils/algorithms/bernstein_polynomial.hpp:55,96, src/utils/base64.hpp:177,202,
    algo_diff_type.hpp:142,157, algo_diff_type.inc:42,81,126,167. *)
From Coq Require Import Arith List ZArith NArith Bool Ascii String Reals.
From Verif Require Import Prelude Scalar ModelBasis ModelSpline ModelRational ModelScalar ModelBase64 ModelAD.
Import ListNotations.
Local Open Scope nat_scope.
Local Notation length := List.length.
Local Notation concat := List.concat.

(** * Bernstein polynomials (ModelBasis.v) *)
Section Basis.
Context (MAXB : nat).
(** src/utils/fastbinomialcoefficient.hpp:60-64
    FastBinomialCoefficient::choose *)
Definition choose_release (n i : nat) : res N :=
  do t <- calculate_table MAXB;
  get t (n * (n + 1) / 2 + i).

Context {T : Type} {o : SOps T}.
(** src/utils/algorithms/bernstein_polynomial.hpp:52-82
    BernsteinPolynomial::Evaluate *)
Definition BernsteinEvaluate_release (degree : nat) (value : T) : res (list T) :=
  let inv_value := ssub s1 value in
  do '(ev, _) <- for_up 0 (degree + 1) (fun i '(ev, cfactor) =>
      do b <- choose_release degree i;
      Ok (ev ++ [smul (sofN b) cfactor], smul cfactor value)) ([], s1);
  do '(ev, _) <- for_up 0 (degree + 1) (fun i '(ev, cfactor) =>
      do e <- get ev (degree - i);
      do ev' <- set ev (degree - i) (smul e cfactor);
      Ok (ev', smul cfactor inv_value)) (ev, s1);
  Ok ev.

(** src/utils/algorithms/bernstein_polynomial.hpp:92-135
    BernsteinPolynomial::EvaluateDerivative.  The lower summation bound goes
    through an unsigned 64-bit difference and a conversion to int. *)
Definition BernsteinEvaluateDerivative_release (degree : nat) (value : T) (deriv : nat)
  : res (list T) :=
  if degree <? deriv then Ok (repeat s0 (degree + 1))
  else if deriv =? 0 then BernsteinEvaluate_release degree value
  else
    do basis <- BernsteinEvaluate_release (degree - deriv) value;
    do aux <- for_up 0 deriv (fun k v => Ok (smul v (sofnat (degree - k)))) s1;
    for_up 0 (degree + 1) (fun i_basis ev =>
      let k_min := Z.to_nat (Z.max 0
        (i32 (u64 (Z.of_nat i_basis + Z.of_nat deriv - Z.of_nat degree)))) in
      do ev <- for_up k_min (S (min i_basis deriv) - k_min) (fun k ev =>
        do b <- choose_release deriv k;
        do bv <- get basis (i_basis - k);
        let eval_v := smul (sofN b) bv in
        do e <- get ev i_basis;
        set ev i_basis (sadd e (if Nat.odd (k + deriv) then sopp eval_v else eval_v))) ev;
      do e <- get ev i_basis;
      set ev i_basis (smul e aux)) (repeat s0 (degree + 1)).

End Basis.

(** * Polynomial splines (ModelSpline.v) *)
Section Generic.
Context {T V : Type} {o : SOps T} {ov : VOps T V}.
(** src/bezier_spline.hpp:196-207  BezierSpline(deg, points) *)
Definition Spline_deg_points_release (deg : list nat) (points : list V) : res (spline V) :=
  do n <- count_points deg;
  do offs <- UpdateIndexOffsets_ deg;
  Ok (mkSpline deg n offs points).

Section WithTable.
Context (MAXB : nat).
Definition DerivativeWRT_release (s : spline V) (orders : list nat) : res (spline V) :=
  do '(nd, cps) <- for_up 0 (length (degrees s)) (fun i_para_dim '(nd, cps) =>
    do k <- get orders i_para_dim;
    if k =? 0 then Ok (nd, cps) else
    do q <- get nd i_para_dim;
    do _ <- (if q <? k then UB else Ok tt);
    do nd <- set nd i_para_dim (q - k);
    do p <- get (degrees s) i_para_dim;
    do factor <- for_up 1 (k - 1) (fun i f => Ok (smul f (sofnat (p - i)))) (sofnat p);
    do n <- count_points_nd nd;
    do cps <- for_up 0 n (fun i_point cps =>
      do mi <- multi_index_of nd i_point;
      do i_point_index <- GlobalToLocalIndex s mi;
      do '(cps, _) <- for_up 1 k (fun j_point_offset '(cps, mi) =>
        do m <- get mi i_para_dim;
        do mi <- set mi i_para_dim (m + 1);
        do b <- choose_release MAXB k j_point_offset;
        let local_coefficient :=
          smul (if Nat.even j_point_offset then s1 else sopp s1) (sofN b) in
        do gi <- GlobalToLocalIndex s mi;
        do x <- get cps gi;
        do y <- get cps i_point_index;
        do cps <- set cps i_point_index (vadd y (vscale local_coefficient x));
        Ok (cps, mi)) (cps, mi);
      do y <- get cps i_point_index;
      set cps i_point_index
        (vscale (smul (if Nat.even k then s1 else sopp s1) factor) y)) cps;
    Ok (nd, cps)) (degrees s, control_points s);
  do derivative <- Spline_deg nd;
  do dcps <- for_up 0 (number_of_control_points derivative) (fun i_point dcps =>
    do mi <- LocalToGlobalIndex derivative i_point;
    do gi <- GlobalToLocalIndex s mi;
    do x <- get cps gi;
    set dcps i_point x) (control_points derivative);
  Ok (with_cps derivative dcps).

(** src/bezier_spline.inc:372-387  BasisFunctionContributions *)
Definition BasisFunctionContributions_release (s : spline V) (par_coords : list T)
  : res (list (list T)) :=
  for_up 0 (length (degrees s)) (fun par_dim factors =>
    do p <- get (degrees s) par_dim;
    do x <- get par_coords par_dim;
    do b <- BernsteinEvaluate_release MAXB p x;
    set factors par_dim b) (repeat [] (length (degrees s))).

(** src/bezier_spline.inc:389-397  BasisFunctions *)
Definition BasisFunctions_release (s : spline V) (par_coords : list T) : res (list T) :=
  do factors <- BasisFunctionContributions_release s par_coords;
  RecursiveCombine factors.

(** src/bezier_spline.inc:399-423  ForwardEvaluate *)
Definition ForwardEvaluate_release (s : spline V) (par_coords : list T) : res V :=
  do factors <- BasisFunctions_release s par_coords;
  combine_points factors (control_points s).

(** src/bezier_spline.inc:425-442  BasisFunctionsDerivativeContributions *)
Definition BasisFunctionsDerivativeContributions_release (s : spline V) (par_coords : list T)
  (nth_derivs : list nat) : res (list (list T)) :=
  for_up 0 (length (degrees s)) (fun par_dim factors =>
    do p <- get (degrees s) par_dim;
    do x <- get par_coords par_dim;
    do k <- get nth_derivs par_dim;
    do b <- BernsteinEvaluateDerivative_release MAXB p x k;
    set factors par_dim b) (repeat [] (length (degrees s))).

(** src/bezier_spline.inc:444-456  BasisFunctionsDerivatives *)
Definition BasisFunctionsDerivatives_release (s : spline V) (par_coords : list T)
  (nth_derivs : list nat) : res (list T) :=
  do factors <- BasisFunctionsDerivativeContributions_release s par_coords nth_derivs;
  RecursiveCombine factors.

(** src/bezier_spline.inc:458-484  EvaluateDerivative *)
Definition EvaluateDerivative_release (s : spline V) (par_coords : list T)
  (nth_derivs : list nat) : res V :=
  do factors <- BasisFunctionsDerivatives_release s par_coords nth_derivs;
  combine_points factors (control_points s).

End WithTable.
(** src/bezier_spline.inc:575-615  operator+(spline).  The source recurses with
    swapped operands when [*this] has a larger degree somewhere; [depth] bounds
    that recursion. *)
Fixpoint spline_add_rec_release (depth fuel : nat) (s rhs : spline V) : res (spline V) :=
  match depth with
  | O => Diverge
  | S depth' =>
    do return_spline <- Spline_deg_points_release (degrees s) (control_points s);
    do rhs_needs_copy <- for_up 0 (length (degrees s)) (fun par_dim b =>
      do p <- get (degrees s) par_dim;
      do q <- get (degrees rhs) par_dim;
      Ok (b || (q <? p))) false;
    do return_spline <- elevate_all fuel (degrees rhs) return_spline;
    if negb rhs_needs_copy then
      combine_assign vadd (number_of_control_points return_spline) return_spline rhs
    else spline_add_rec_release depth' fuel rhs return_spline
  end.

Definition spline_add_release (fuel : nat) (s rhs : spline V) : res (spline V) :=
  spline_add_rec_release fuel fuel s rhs.

(** src/bezier_spline.inc:642-674  operator-(spline).  The first loop tests
    [degrees] of [*this], which it never changes. *)
Definition spline_sub_release (fuel : nat) (s rhs : spline V) : res (spline V) :=
  do return_spline <- Spline_deg_points_release (degrees s) (control_points s);
  do return_spline <- for_up 0 (length (degrees s)) (fun par_dim r =>
    do q <- get (degrees rhs) par_dim;
    do p <- get (degrees s) par_dim;
    while_ fuel (fun _ => p <? q) (fun y => OrderElevate y par_dim) r) return_spline;
  do rhs <- elevate_all fuel (degrees s) rhs;
  combine_assign vsub (number_of_control_points s) return_spline rhs.

End Generic.
Section Product.
Context (MAXB : nat).
Context {T V1 V2 V3 : Type} {o : SOps T} {o3 : VOps T V3}.
Context (pmul : V1 -> V2 -> V3).
(** src/bezier_spline.inc:60-105  CombineControlPointsForProduct_ (compile-time
    recursion over the parametric dimension: [depth] remaining dimensions;
    [indices] are the indices fixed so far, in order). *)
Fixpoint CombineControlPoints_release (remaining : nat) (P : spline V1) (Q : spline V2)
  (ctpsIndex : list nat) (factor : T) (indices : list nat) (this : spline V3)
  : res (spline V3) :=
  match remaining with
  | O => UB
  | S rem' =>
    let depth := length indices in
    do k <- get ctpsIndex depth;
    do m <- get (degrees P) depth;
    do n <- get (degrees Q) depth;
    for_up (k - n) (S (min k m) - (k - n)) (fun i this =>
      do cm <- choose_release MAXB m i;
      do cn <- choose_release MAXB n (k - i);
      do cmn <- choose_release MAXB (m + n) k;
      do lFactor <- divS (sofN (cm * cn mod 2 ^ 64)%N) (sofN cmn);
      match rem' with
      | O =>
        let ind_lhs := indices ++ [i] in
        let ind_rhs := map (fun '(a, b) => a - b) (combine ctpsIndex ind_lhs) in
        do c <- ControlPoint this ctpsIndex;
        do a <- ControlPoint P ind_lhs;
        do b <- ControlPoint Q ind_rhs;
        SetControlPoint this ctpsIndex
          (vadd c (vscale lFactor (vscale factor (pmul a b))))
      | S _ => CombineControlPoints_release rem' P Q ctpsIndex (smul factor lFactor) (indices ++ [i]) this
      end) this
  end.

(** src/bezier_spline.inc:873-906  operator*(spline) *)
Definition spline_mul_release (s : spline V1) (rhs : spline V2) : res (spline V3) :=
  do pd <- for_up 0 (length (degrees s)) (fun i pd =>
    do a <- get (degrees s) i;
    do b <- get (degrees rhs) i;
    set pd i (a + b)) (repeat 0 (length (degrees s)));
  do r <- Spline_deg pd;
  for_up 0 (number_of_control_points r) (fun i r =>
    do idx <- LocalToGlobalIndex r i;
    CombineControlPoints_release (length (degrees s)) s rhs idx s1 [] r) r.

End Product.
Section Scalar.
Context (MAXB : nat).
Context {T : Type} {o : SOps T}.
(** Product of scalar-valued splines. *)
Definition spline_mul_ss_release := spline_mul_release MAXB (V1 := T) (V2 := T) (V3 := T) smul.

(** The constant-one spline of degree zero,
    src/bezier_spline.inc:736-741 and 1157-1164. *)
Definition const_one_release (dim : nat) : res (spline T) :=
  Spline_deg_points_release (repeat 0 dim) [s1].

(** src/bezier_spline.inc:727-760  RaisePower on a scalar-valued spline.
    [fuel] bounds the recursion depth (power/2). *)
Fixpoint RaisePower_rec_release (fuel : nat) (s : spline T) (power : nat) : res (spline T) :=
  match fuel with
  | O => Diverge
  | S f =>
    if power =? 0 then const_one_release (length (degrees s))
    else if power =? 1 then Ok s
    else
      do r <- RaisePower_rec_release f s (power / 2);
      do rr <- spline_mul_ss_release r r;
      if power mod 2 =? 0 then Ok rr else spline_mul_ss_release rr s
  end.

Definition RaisePower_release (s : spline T) (power : nat) : res (spline T) :=
  RaisePower_rec_release (S power) s power.

End Scalar.
Section Compose.
Context (MAXB : nat).
Context {T V : Type} {o : SOps T} {ov : VOps T V}.
(** One direction of the "Bernstein basis splines",
    src/bezier_spline.inc:1149-1218: [c] is the extracted coordinate spline and
    [ic] its complement ([1 - c] or [w - c]). *)
Definition bernstein_basis_splines_release (dim_in : nat) (p : nat) (c ic : spline T)
  : res (list (spline T)) :=
  do one <- const_one_release dim_in;
  (* default-constructed entries of the resized vector *)
  let dflt := mkSpline (repeat 0 dim_in) 0 (repeat 0 dim_in) [] in
  do b <- set (repeat dflt (p + 1)) 0 one;
  do '(b, _) <- for_up 1 p (fun i '(b, m) =>
    do m <- spline_mul_ss_release MAXB m c;
    do b <- set b i m;
    Ok (b, m)) (b, one);
  do '(b, _) <- for_up 1 p (fun i '(b, m) =>
    do m <- spline_mul_ss_release MAXB m ic;
    do x <- get b (p - i);
    do x <- spline_mul_ss_release MAXB x m;
    do b <- set b (p - i) x;
    Ok (b, m)) (b, one);
  for_up 1 (p - 1) (fun i b =>
    do x <- get b (p - i);
    do k <- choose_release MAXB p i;
    do x <- scale_assign x (sofN k);
    set b (p - i) x) b.

(** All directions; [extract k] is ExtractDimension(k) of the inner spline and
    [inverse] builds the complement. *)
Definition all_basis_splines_release (outer : spline V) (dim_in : nat)
  (extract : nat -> res (spline T)) (inverse : spline T -> res (spline T))
  : res (list (list (spline T))) :=
  for_up 0 (length (degrees outer)) (fun k bs =>
    do p <- get (degrees outer) k;
    do c <- extract k;
    do ic <- inverse c;
    do b <- bernstein_basis_splines_release dim_in p c ic;
    set bs k b) (repeat [] (length (degrees outer))).

(** Tensor product for one outer control point, src/bezier_spline.inc:1250-1258
    and 1262-1271. *)
Definition tensor_spline_release (bs : list (list (spline T))) (idx : list nat) (dim_out : nat)
  : res (spline T) :=
  do b0 <- get bs 0;
  do i0 <- get idx 0;
  do t <- get b0 i0;
  for_up 1 (dim_out - 1) (fun k t =>
    do b <- get bs k;
    do i <- get idx k;
    do x <- get b i;
    spline_mul_ss_release MAXB t x) t.

(** src/bezier_spline.inc:1079-1302  ComposeNumeratorHelper<false> *)
Definition ComposeNumerator_release (outer : spline V) (inner_degrees : list nat)
  (extract : nat -> res (spline T)) (inverse : spline T -> res (spline T))
  : res (spline V) :=
  let new_degrees := map (fun p => p * sum_degrees outer) inner_degrees in
  do r <- Spline_deg new_degrees;
  do bs <- all_basis_splines_release outer (length inner_degrees) extract inverse;
  for_up 0 (number_of_control_points outer) (fun i r =>
    do idx <- LocalToGlobalIndex outer i;
    do t <- tensor_spline_release bs idx (length (degrees outer));
    do c <- for_up 0 (number_of_control_points r) (fun j c =>
      do a <- get c j;
      do b <- get (control_points t) j;
      do q <- get (control_points outer) i;
      set c j (vadd a (vscale b q))) (control_points r);
    Ok (with_cps r c)) r.

(** src/bezier_spline.inc:1079-1302  ComposeNumeratorHelper<true> *)
Definition ComposeNumeratorSensitivity_release (outer : spline V) (inner_degrees : list nat)
  (extract : nat -> res (spline T)) (inverse : spline T -> res (spline T))
  : res (list (spline T)) :=
  do bs <- all_basis_splines_release outer (length inner_degrees) extract inverse;
  for_up 0 (number_of_control_points outer) (fun i out =>
    do idx <- LocalToGlobalIndex outer i;
    do t <- tensor_spline_release bs idx (length (degrees outer));
    Ok (out ++ [t])) [].

(** src/bezier_spline.inc:908-931  Compose(polynomial inner).  The static_assert on
    the dimensions is the typing [point T (length (degrees outer))]; here the
    physical dimension [d] of the inner spline is compared explicitly. *)
Definition Compose_release {d} (outer : spline V) (inner : spline (point T d)) : res (spline V) :=
  do fits <- FitsIntoUnitCube inner;
  if negb fits then Throw else
  ComposeNumerator_release outer (degrees inner) (ExtractDimension inner) inverse_poly.

(** src/bezier_spline.inc:933-957  ComposeSensitivity(polynomial inner) *)
Definition ComposeSensitivity_release {d} (outer : spline V) (inner : spline (point T d))
  : res (list (spline T)) :=
  do fits <- FitsIntoUnitCube inner;
  if negb fits then Throw else
  ComposeNumeratorSensitivity_release outer (degrees inner) (ExtractDimension inner) inverse_poly.

End Compose.

(** * Rational splines (ModelRational.v) *)
Section Rational.
Context {T V : Type} {o : SOps T} {ov : VOps T V}.
(** src/rational_bezier_spline.hpp:123-129  constructor from two splines *)
Definition R_mk_release (u : spline V) (w : spline T) : res (rspline T V) :=
  Ok (mkR u w).

(** src/rational_bezier_spline.hpp:104-120  constructor from a polynomial spline *)
Definition R_of_spline_release (s : spline V) : res (rspline T V) :=
  do w <- Spline_deg_points_release (degrees s) (repeat (s1 : T) (number_of_control_points s));
  R_mk_release s w.

(** src/rational_bezier_spline.hpp:140-153  constructor from control points and weights *)
Definition R_deg_points_release (deg : list nat) (pts : list V) (ws : list T) : res (rspline T V) :=
  do u <- Spline_deg deg;
  do w <- Spline_deg_points_release deg ws;
  do c <- for_up 0 (length (control_points u)) (fun i c =>
    do p <- get pts i;
    do x <- get ws i;
    set c i (vscale x p)) (control_points u);
  R_mk_release (with_cps u c) w.

(** src/rational_bezier_spline.hpp:196-202  UpdateDegrees *)
Definition R_UpdateDegrees_release (r : rspline T V) (deg : list nat) : res (rspline T V) :=
  do w <- UpdateDegrees (weight_function r) deg;
  do u <- UpdateDegrees (weighted_spline r) deg;
  R_mk_release u w.

Section WithTable.
Context (MAXB : nat).
(** src/rational_bezier_spline.inc:155-185  UnweightedBasisFunctions *)
Definition R_UnweightedBasisFunctions_release (r : rspline T V) (xs : list T) : res (list T) :=
  do factors <- BasisFunctions_release MAXB (weight_function r) xs;
  do weight_eval <- for_up 0 (length factors) (fun i acc =>
    do f <- get factors i;
    do w <- get (control_points (weight_function r)) i;
    Ok (sadd acc (smul f w))) s0;
  do inv <- divS s1 weight_eval;
  for_up 0 (length factors) (fun i fs => do f <- get fs i; set fs i (smul f inv)) factors.

(** src/rational_bezier_spline.inc:135-153  BasisFunctions *)
Definition R_BasisFunctions_release (r : rspline T V) (xs : list T) : res (list T) :=
  do factors <- R_UnweightedBasisFunctions_release r xs;
  for_up 0 (length factors) (fun i fs =>
    do f <- get fs i;
    do w <- get (control_points (weight_function r)) i;
    set fs i (smul f w)) factors.

(** src/rational_bezier_spline.inc:196-218  ForwardEvaluate *)
Definition R_ForwardEvaluate_release (r : rspline T V) (xs : list T) : res V :=
  do factors <- BasisFunctions_release MAXB (weighted_spline r) xs;
  combine_points factors (control_points (weighted_spline r)).

(** Product of binomial coefficients in std::size_t,
    src/rational_bezier_spline.inc:307-312 and 415-420. *)
Definition binom_product_release (lhs rhs : list nat) (dim : nat) : res N :=
  for_up 0 dim (fun i_pd (f : N) =>
    do a <- get lhs i_pd; do b <- get rhs i_pd;
    do c <- choose_release MAXB a b;
    Ok ((f * c) mod 2 ^ 64)%N) 1%N.

(** The double loop of src/rational_bezier_spline.inc:292-321 (points) and 396-432
    (vectors of basis function derivatives), which differ only in the operations on
    the entries: [sub x c y] is [x -= c * y], [scale x] is [x *= inv_w_fact] and [dflt]
    a default-constructed entry. *)
Definition leibniz_loop_release {X} (dflt : X) (sub : X -> T -> X -> res X) (scale : X -> res X)
  (nth_derivs : list nat) (number_of_derivs : nat) (A : list X) (w : list T)
  : res (list X) :=
  for_up 0 number_of_derivs (fun i_deriv derivs =>
    do lhs <- local_ids nth_derivs i_deriv;
    do a <- get A i_deriv;
    do derivs <- set derivs i_deriv a;
    do derivs <- for_up 1 i_deriv (fun j_deriv derivs =>
      do rhs <- local_ids nth_derivs j_deriv;
      do skip <- is_not_subset lhs rhs (length nth_derivs);
      if skip then Ok derivs else
      do b <- binom_product_release lhs rhs (length nth_derivs);
      do wj <- get w j_deriv;
      do y <- get derivs (i_deriv - j_deriv);
      do x <- get derivs i_deriv;
      do x <- sub x (smul (sofN b) wj) y;
      set derivs i_deriv x) derivs;
    do x <- get derivs i_deriv;
    do x <- scale x;
    set derivs i_deriv x) (repeat dflt number_of_derivs).

(** src/rational_bezier_spline.inc:220-322  EvaluateDerivative *)
Definition R_EvaluateDerivative_release (r : rspline T V) (xs : list T) (nth_derivs : list nat)
  : res V :=
  do g <- global_ids nth_derivs nth_derivs;
  let number_of_derivs := g + 1 in
  do '(A, w) <- for_up 0 number_of_derivs (fun i '(A, w) =>
    do req <- local_ids nth_derivs i;
    do a <- EvaluateDerivative_release MAXB (weighted_spline r) xs req;
    do A <- set A i a;
    do b <- EvaluateDerivative_release MAXB (weight_function r) xs req;
    do w <- set w i b;
    Ok (A, w)) (repeat v0 number_of_derivs, repeat s0 number_of_derivs);
  do w0 <- get w 0;
  do inv <- divS s1 w0;
  do derivs <- leibniz_loop_release v0 (fun x c y => Ok (vsub x (vscale c y)))
    (fun x => Ok (vscale inv x)) nth_derivs number_of_derivs A w;
  get derivs (number_of_derivs - 1).

(** src/rational_bezier_spline.inc:324-435  BasisFunctionsDerivatives *)
Definition R_BasisFunctionsDerivatives_release (r : rspline T V) (xs : list T)
  (nth_derivs : list nat) : res (list T) :=
  do g <- global_ids nth_derivs nth_derivs;
  let number_of_derivs := g + 1 in
  let n_basis := number_of_control_points (weighted_spline r) in
  do '(A, w) <- for_up 0 number_of_derivs (fun i '(A, w) =>
    do req <- local_ids nth_derivs i;
    do a <- BasisFunctionsDerivatives_release MAXB (weighted_spline r) xs req;
    do A <- set A i a;
    for_up 0 n_basis (fun i_basis '(A, w) =>
      do weight <- get (control_points (weight_function r)) i_basis;
      do row <- get A i;
      do x <- get row i_basis;
      do wi <- get w i;
      do w <- set w i (sadd wi (smul weight x));
      do row <- set row i_basis (smul x weight);
      do A <- set A i row;
      Ok (A, w)) (A, w)) (repeat [] number_of_derivs, repeat s0 number_of_derivs);
  do w0 <- get w 0;
  do inv <- divS s1 w0;
  do derivs <- leibniz_loop_release []
    (fun x c y => for_up 0 n_basis (fun i x =>
       do a <- get x i; do b <- get y i; set x i (ssub a (smul c b))) x)
    (fun x => for_up 0 n_basis (fun i x => do a <- get x i; set x i (smul a inv)) x)
    nth_derivs number_of_derivs A w;
  get derivs (number_of_derivs - 1).

End WithTable.
(** src/rational_bezier_spline.inc:437-448  OrderElevateAlongParametricDimension *)
Definition R_OrderElevate_release (r : rspline T V) (par_dim : nat) : res (rspline T V) :=
  do u <- OrderElevate (weighted_spline r) par_dim;
  do w <- OrderElevate (weight_function r) par_dim;
  R_mk_release u w.

(** src/rational_bezier_spline.inc:450-464  SplitAtPosition(plane, dimension) *)
Definition R_SplitAtPosition_release (r : rspline T V) (plane : T) (dim : nat)
  : res (list (rspline T V)) :=
  do us <- SplitAtPosition (weighted_spline r) plane dim;
  do ws <- SplitAtPosition (weight_function r) plane dim;
  do u0 <- get us 0; do w0 <- get ws 0;
  do u1 <- get us 1; do w1 <- get ws 1;
  do a <- R_mk_release u0 w0;
  do b <- R_mk_release u1 w1;
  Ok [a; b].

(** src/rational_bezier_spline.inc:466-506  SplitAtPosition(planes, dimension) *)
Definition R_SplitAtPositions_release (r : rspline T V) (planes : list T) (dim : nat)
  : res (list (rspline T V)) :=
  if negb (is_sorted planes) then Throw else
  if length planes =? 0 then Ok [r] else
  do p0 <- get planes 0;
  do split <- R_SplitAtPosition_release r p0 dim;
  do x <- get split 0;
  do '(out, split) <- for_up 1 (length planes - 1) (fun i '(out, split) =>
    do pi <- get planes i;
    do pm <- get planes (i - 1);
    do rel <- divS (ssub pi pm) (ssub s1 pm);
    do rest <- get split 1;
    do split <- R_SplitAtPosition_release rest rel dim;
    do x <- get split 0;
    Ok (out ++ [x], split)) ([x], split);
  do x <- get split 1;
  Ok (out ++ [x]).

(** src/rational_bezier_spline.inc:548-559  operator*=(scalar) *)
Definition R_scale_assign_release (r : rspline T V) (c : T) : res (rspline T V) :=
  do u <- scale_assign (weighted_spline r) c; R_mk_release u (weight_function r).

(** src/rational_bezier_spline.inc:561-569  operator*(scalar) *)
Definition R_scale_release (r : rspline T V) (c : T) : res (rspline T V) :=
  do u <- spline_scale (weighted_spline r) c; R_mk_release u (weight_function r).

(** src/rational_bezier_spline.inc:571-586  operator+=(point) *)
Definition R_shift_assign_release (r : rspline T V) (p : V) : res (rspline T V) :=
  do u <- R_shift_loop vadd r p; R_mk_release u (weight_function r).

(** src/rational_bezier_spline.inc:588-600  operator+(point) *)
Definition R_shift_release (r : rspline T V) (p : V) : res (rspline T V) :=
  do r <- R_mk_release (weighted_spline r) (weight_function r); R_shift_assign_release r p.

(** src/rational_bezier_spline.inc:616-626  operator-(point) *)
Definition R_unshift_release (r : rspline T V) (p : V) : res (rspline T V) :=
  do r <- R_mk_release (weighted_spline r) (weight_function r); R_unshift_assign r p.

(** src/rational_bezier_spline.inc:628-636  unary minus *)
Definition R_neg_release (r : rspline T V) : res (rspline T V) :=
  do u <- spline_neg (weighted_spline r); R_mk_release u (weight_function r).

Section Arith.
Context (MAXB fuel : nat).
(** point-valued * scalar-valued and scalar-valued * point-valued spline products *)
Definition spline_mul_vs_release := spline_mul_release MAXB (V1 := V) (V2 := T) (V3 := V) (fun p c => vscale c p).

Definition spline_mul_sv_release := spline_mul_release MAXB (V1 := T) (V2 := V) (V3 := V) (fun c p => vscale c p).

(** src/rational_bezier_spline.inc:638-653  operator+(rational) *)
Definition R_add_release (r rhs : rspline T V) : res (rspline T V) :=
  if spline_eqb (weight_function r) (weight_function rhs) then
    do u <- spline_add_release fuel (weighted_spline r) (weighted_spline rhs);
    R_mk_release u (weight_function r)
  else
    do a <- spline_mul_vs_release (weighted_spline r) (weight_function rhs);
    do b <- spline_mul_sv_release (weight_function r) (weighted_spline rhs);
    do u <- spline_add_release fuel a b;
    do w <- spline_mul_ss_release MAXB (weight_function r) (weight_function rhs);
    R_mk_release u w.

(** src/rational_bezier_spline.inc:655-674  operator+=(rational) *)
Definition R_add_assign_release (r rhs : rspline T V) : res (rspline T V) :=
  if spline_eqb (weight_function r) (weight_function rhs) then
    do u <- spline_add_assign fuel (weighted_spline r) (weighted_spline rhs);
    Ok (mkR u (weight_function r))
  else
    do u <- spline_mul_vs_release (weighted_spline r) (weight_function rhs);
    do b <- spline_mul_sv_release (weight_function r) (weighted_spline rhs);
    do u <- spline_add_assign fuel u b;
    do w <- spline_mul_ss_release MAXB (weight_function r) (weight_function rhs);
    R_mk_release u w.

(** src/rational_bezier_spline.inc:676-691  operator-(rational) *)
Definition R_sub_release (r rhs : rspline T V) : res (rspline T V) :=
  if spline_eqb (weight_function r) (weight_function rhs) then
    do u <- spline_sub_release fuel (weighted_spline r) (weighted_spline rhs);
    R_mk_release u (weight_function r)
  else
    do a <- spline_mul_vs_release (weighted_spline r) (weight_function rhs);
    do b <- spline_mul_sv_release (weight_function r) (weighted_spline rhs);
    do u <- spline_sub_release fuel a b;
    do w <- spline_mul_ss_release MAXB (weight_function r) (weight_function rhs);
    R_mk_release u w.

(** src/rational_bezier_spline.inc:693-712  operator-=(rational) *)
Definition R_sub_assign_release (r rhs : rspline T V) : res (rspline T V) :=
  if spline_eqb (weight_function r) (weight_function rhs) then
    do u <- spline_sub_assign fuel (weighted_spline r) (weighted_spline rhs);
    Ok (mkR u (weight_function r))
  else
    do u <- spline_mul_vs_release (weighted_spline r) (weight_function rhs);
    do b <- spline_mul_sv_release (weight_function r) (weighted_spline rhs);
    do u <- spline_sub_assign fuel u b;
    do w <- spline_mul_ss_release MAXB (weight_function r) (weight_function rhs);
    R_mk_release u w.

(** One pass of the inner loop of src/rational_bezier_spline.inc:531-542. *)
Definition R_derivative_step_release (i_para_dim : nat) (r : rspline T V) : res (rspline T V) :=
  do order_ <- set (repeat 0 (length (degrees (weighted_spline r)))) i_para_dim 1;
  do du <- DerivativeWRT_release MAXB (weighted_spline r) order_;
  do a <- spline_mul_vs_release du (weight_function r);
  do dw <- DerivativeWRT_release MAXB (weight_function r) order_;
  do b <- spline_mul_sv_release dw (weighted_spline r);
  do u <- spline_sub_release fuel a b;
  do u <- OrderElevate u i_para_dim;
  do w <- spline_mul_ss_release MAXB (weight_function r) (weight_function r);
  R_mk_release u w.

(** src/rational_bezier_spline.inc:508-546  DerivativeWRTParametricDimension *)
Definition R_DerivativeWRT_release (r : rspline T V) (orders : list nat) : res (rspline T V) :=
  for_up 0 (length (degrees (weighted_spline r))) (fun i_para_dim r =>
    do k <- get orders i_para_dim;
    for_up 0 k (fun _ r => R_derivative_step_release i_para_dim r) r) r.

End Arith.
End Rational.
(** src/rational_bezier_spline.inc:714-724  operator*(rational); [pmul] is the product of
    the control-point types. *)
Definition R_mul_release (MAXB : nat) {T V1 V2 V3 : Type} {o : SOps T} {o3 : VOps T V3}
  (pmul : V1 -> V2 -> V3) (r : rspline T V1) (rhs : rspline T V2) : res (rspline T V3) :=
  do u <- spline_mul_release MAXB pmul (weighted_spline r) (weighted_spline rhs);
  do w <- spline_mul_ss_release MAXB (weight_function r) (weight_function rhs);
  R_mk_release u w.

Section Compose.
Context (MAXB fuel : nat).
Context {T V : Type} {o : SOps T} {ov : VOps T V} {d : nat}.
(** [weight - extracted_dimension], src/bezier_spline.inc:1183 *)
Definition inverse_rational_release (w c : spline T) : res (spline T) := spline_sub_release fuel w c.

(** ComposeNumeratorSpline / ComposeNumeratorSensitivity with a rational inner spline *)
Definition ComposeNumerator_R_release {V} {ov : VOps T V} (outer : spline V) (inner : rspline T (point T d))
  : res (spline V) :=
  ComposeNumerator_release MAXB outer (degrees (weighted_spline inner)) (R_ExtractDimension inner)
    (inverse_rational_release (weight_function inner)).

Definition ComposeNumeratorSensitivity_R_release {V} (outer : spline V)
  (inner : rspline T (point T d)) : res (list (spline T)) :=
  ComposeNumeratorSensitivity_release MAXB outer (degrees (weighted_spline inner)) (R_ExtractDimension inner)
    (inverse_rational_release (weight_function inner)).

(** src/bezier_spline.inc:1304-1321  ComposeDenominatorSpline *)
Definition ComposeDenominator_release {V} (outer : spline V) (inner : rspline T (point T d)) : res (spline T) :=
  RaisePower_release MAXB (weight_function inner) (sum_degrees outer).

(** src/bezier_spline.inc:959-986  polynomial outer, rational inner *)
Definition Compose_PR_release (outer : spline V) (inner : rspline T (point T d)) : res (rspline T V) :=
  do fits <- R_FitsIntoUnitCube inner;
  if negb fits then Throw else
  do u <- ComposeNumerator_R_release outer inner;
  do w <- ComposeDenominator_release outer inner;
  R_mk_release u w.

(** src/bezier_spline.inc:988-1034 *)
Definition ComposeSensitivity_PR_release (outer : spline V) (inner : rspline T (point T d))
  : res (list (rspline T T)) :=
  do fits <- R_FitsIntoUnitCube inner;
  if negb fits then Throw else
  do us <- ComposeNumeratorSensitivity_R_release outer inner;
  do w <- ComposeDenominator_release outer inner;
  for_up 0 (number_of_control_points outer) (fun i out =>
    do u <- get us i; do r <- R_mk_release u w; Ok (out ++ [r])) [].

(** src/rational_bezier_spline.hpp:446-460  rational outer, polynomial inner *)
Definition Compose_RP_release (outer : rspline T V) (inner : spline (point T d)) : res (rspline T V) :=
  do u <- Compose_release MAXB (weighted_spline outer) inner;
  do w <- Compose_release MAXB (weight_function outer) inner;
  R_mk_release u w.

(** the loop of src/rational_bezier_spline.inc:762-770 and 801-809 *)
Definition scale_sensitivities_release (outer : rspline T V) (nums : list (spline T)) (den : spline T)
  : res (list (rspline T T)) :=
  for_up 0 (length nums) (fun i out =>
    do n <- get nums i;
    do w <- get (control_points (weight_function outer)) i;
    do u <- spline_scale n w;
    do r <- R_mk_release u den;
    Ok (out ++ [r])) [].

(** src/rational_bezier_spline.inc:735-772 *)
Definition ComposeSensitivity_RP_release (outer : rspline T V) (inner : spline (point T d))
  : res (list (rspline T T)) :=
  do nums <- ComposeSensitivity_release MAXB (weighted_spline outer) inner;
  do den <- Compose_release MAXB (weight_function outer) inner;
  scale_sensitivities_release outer nums den.

(** src/rational_bezier_spline.hpp:502-521  rational outer, rational inner; the inner
    spline is not tested with FitsIntoUnitCube *)
Definition Compose_RR_release (outer : rspline T V) (inner : rspline T (point T d)) : res (rspline T V) :=
  do u <- ComposeNumerator_R_release (weighted_spline outer) inner;
  do w <- ComposeNumerator_R_release (weight_function outer) inner;
  R_mk_release u w.

(** src/rational_bezier_spline.inc:774-809 *)
Definition ComposeSensitivity_RR_release (outer : rspline T V) (inner : rspline T (point T d))
  : res (list (rspline T T)) :=
  do nums <- ComposeNumeratorSensitivity_R_release (weighted_spline outer) inner;
  do den <- ComposeNumerator_R_release (weight_function outer) inner;
  scale_sensitivities_release outer nums den.

End Compose.

(** * Scalar-valued inner splines (ModelScalar.v) *)
Section Compose.
Context (MAXB fuel : nat).
Context {T V : Type} {o : SOps T} {ov : VOps T V}.
(** src/bezier_spline.inc:908-931 *)
Definition Compose_s_release {V} {ov : VOps T V} (outer : spline V) (inner : spline T) : res (spline V) :=
  do fits <- FitsIntoUnitCube_s inner;
  if negb fits then Throw else
  ComposeNumerator_release MAXB outer (degrees inner) (ExtractDimension_s inner) inverse_poly.

(** src/bezier_spline.inc:933-957 *)
Definition ComposeSensitivity_s_release (outer : spline V) (inner : spline T) : res (list (spline T)) :=
  do fits <- FitsIntoUnitCube_s inner;
  if negb fits then Throw else
  ComposeNumeratorSensitivity_release MAXB outer (degrees inner) (ExtractDimension_s inner) inverse_poly.

Definition ComposeNumerator_R_s_release {V} {ov : VOps T V} (outer : spline V) (inner : rspline T T) : res (spline V) :=
  ComposeNumerator_release MAXB outer (degrees (weighted_spline inner)) (R_ExtractDimension_s inner)
    (inverse_rational_release fuel (weight_function inner)).

Definition ComposeNumeratorSensitivity_R_s_release {V} (outer : spline V) (inner : rspline T T) : res (list (spline T)) :=
  ComposeNumeratorSensitivity_release MAXB outer (degrees (weighted_spline inner)) (R_ExtractDimension_s inner)
    (inverse_rational_release fuel (weight_function inner)).

(** src/bezier_spline.inc:1304-1321 *)
Definition ComposeDenominator_s_release {V} (outer : spline V) (inner : rspline T T) : res (spline T) :=
  RaisePower_release MAXB (weight_function inner) (sum_degrees outer).

(** src/bezier_spline.inc:959-986 *)
Definition Compose_PR_s_release (outer : spline V) (inner : rspline T T) : res (rspline T V) :=
  do fits <- R_FitsIntoUnitCube_s inner;
  if negb fits then Throw else
  do u <- ComposeNumerator_R_s_release outer inner;
  do w <- ComposeDenominator_s_release outer inner;
  R_mk_release u w.

(** src/bezier_spline.inc:988-1034 *)
Definition ComposeSensitivity_PR_s_release (outer : spline V) (inner : rspline T T) : res (list (rspline T T)) :=
  do fits <- R_FitsIntoUnitCube_s inner;
  if negb fits then Throw else
  do us <- ComposeNumeratorSensitivity_R_s_release outer inner;
  do w <- ComposeDenominator_s_release outer inner;
  for_up 0 (number_of_control_points outer) (fun i out =>
    do u <- get us i; do r <- R_mk_release u w; Ok (out ++ [r])) [].

(** src/rational_bezier_spline.hpp:446-460 *)
Definition Compose_RP_s_release (outer : rspline T V) (inner : spline T) : res (rspline T V) :=
  do u <- Compose_s_release (weighted_spline outer) inner;
  do w <- Compose_s_release (weight_function outer) inner;
  R_mk_release u w.

(** src/rational_bezier_spline.inc:735-772 *)
Definition ComposeSensitivity_RP_s_release (outer : rspline T V) (inner : spline T) : res (list (rspline T T)) :=
  do nums <- ComposeSensitivity_s_release (weighted_spline outer) inner;
  do den <- Compose_s_release (weight_function outer) inner;
  scale_sensitivities_release outer nums den.

(** src/rational_bezier_spline.hpp:502-521 *)
Definition Compose_RR_s_release (outer : rspline T V) (inner : rspline T T) : res (rspline T V) :=
  do u <- ComposeNumerator_R_s_release (weighted_spline outer) inner;
  do w <- ComposeNumerator_R_s_release (weight_function outer) inner;
  R_mk_release u w.

(** src/rational_bezier_spline.inc:774-809 *)
Definition ComposeSensitivity_RR_s_release (outer : rspline T V) (inner : rspline T T) : res (list (rspline T T)) :=
  do nums <- ComposeNumeratorSensitivity_R_s_release (weighted_spline outer) inner;
  do den <- ComposeNumerator_R_s_release (weight_function outer) inner;
  scale_sensitivities_release outer nums den.

End Compose.

(** * Base64 (ModelBase64.v) *)
(** src/utils/base64.hpp:197-242 [Decode] *)
Definition Decode_release (sz : nat) (s : list ascii) : res (list (list N)) :=
  let groups := length s / 4 in
  let n_out := groups * 3 / sz in
  do table <- ReverseCharEncodeTable;
  do out <- for_up 0 groups (decode_group table s) (repeat 0%N (n_out * sz));
  Ok (entries_of sz n_out out).

(** src/utils/base64.hpp:161-189 [Decode] into a vector of points. *)
Definition Decode_points_release (dim sz : nat) (s : list ascii) : res (list (list (list N))) :=
  do data <- Decode_release sz s;
  let n := length data / dim in
  for_up 0 n (fun i pts =>
    for_up 0 dim (fun j pts =>
      do x <- get data (i * dim + j);
      do p <- get pts i;
      do p <- set p j x;
      set pts i p) pts)
    (repeat (repeat (repeat 0%N sz) dim) n).

(** * Algorithmic differentiation (ModelAD.v) *)
Local Open Scope R_scope.
Section AD.
Context {S : Type} {os : ADScalar S}.
Implicit Types a b : adt S.
(** algo_diff_type.hpp:136-144, 153-159 with [SetActiveComponent], 189-192 *)
Definition AD_input_release (n : nat) (value : S) (active_component : nat) : res (adt S) :=
  let d := repeat a_zero n in
  do d <- set (repeat a_zero (length d)) active_component (a_lit 1);
  Ok (mkADT value d).

Definition same_number_release a b : res unit := Ok tt.

(** algo_diff_type.inc:28-63 *)
Definition AD_add_assign_release a b : res (adt S) :=
  do _ <- same_number_release a b;
  do v <- a_add (ad_v a) (ad_v b);
  do d <- each2 a_add (ad_d a) (ad_d b);
  Ok (mkADT v d).

Definition AD_add_release a b : res (adt S) := AD_add_assign_release a b.

Definition AD_sub_release a b : res (adt S) := do _ <- same_number_release a b; AD_sub_assign a b.

(** algo_diff_type.inc:112-151 *)
Definition AD_mul_assign_release a b : res (adt S) :=
  do _ <- same_number_release a b;
  do d <- each2 (fun x z => do l <- a_mul z (ad_v a); do r <- a_mul (ad_v b) x; a_add l r) (ad_d a) (ad_d b);
  do v <- a_mul (ad_v a) (ad_v b);
  Ok (mkADT v d).

Definition AD_mul_release a b : res (adt S) := AD_mul_assign_release a b.

(** algo_diff_type.inc:153-194 *)
Definition AD_div_assign_release a b : res (adt S) :=
  do _ <- same_number_release a b;
  do sq <- a_mul (ad_v b) (ad_v b);
  do inv <- a_div_l 1 sq;
  do d <- each2 (fun x z => do l <- a_mul (ad_v b) x; do r <- a_mul z (ad_v a); do m <- a_sub l r; a_mul m inv)
            (ad_d a) (ad_d b);
  do v <- a_div (ad_v a) (ad_v b);
  Ok (mkADT v d).

Definition AD_div_release a b : res (adt S) := AD_div_assign_release a b.

(** algo_diff_type.inc:279-284 *)
Definition AD_pow_release a b : res (adt S) := do l <- AD_log a; do m <- AD_mul_release l b; AD_exp m.

End AD.

