(** Sizes and indices in 64 bits, continued: basis functions, forward evaluation and evaluated derivatives
    (src/utils/algorithms/bernstein_polynomial.hpp, src/utils/algorithms/recursive_combine.hpp,
    src/bezier_spline.inc, src/rational_bezier_spline.inc).  Same
    conventions as ModelSize.v and ModelSize2.v.  A vector of points holds at most [limit] elements, one of
    scalars [limit_w], one of vectors of scalars [limit_r]; growing beyond throws. *)
From Coq Require Import Arith Lia List ZArith NArith Bool.
From Verif Require Import Prelude Scalar ModelBasis ModelPoint ModelSpline ModelRational ModelSize ModelSize2.
Import ListNotations.

Section Basis.
Context (MAXB limit_w : nat) {T : Type} {o : SOps T}.

(** reserve() and resize() of a vector of scalars *)
Definition grow (n : nat) : res unit := if limit_w <? n then Throw else Ok tt.
Definition push_back (l : list T) (x : T) : res (list T) :=
  if length l <? limit_w then Ok (l ++ [x]) else Throw.

(** src/utils/algorithms/bernstein_polynomial.hpp:52-82  Evaluate *)
Definition BernsteinEvaluate_64 (degree : nat) (value : T) : res (list T) :=
  do _ <- assert_ (degree <? MAXB);
  do _ <- grow (w64 (degree + 1));
  let inv_value := ssub s1 value in
  do '(ev, _) <- for_up 0 (w64 (degree + 1)) (fun i '(ev, cfactor) =>
      do b <- choose_64 MAXB (Z.of_nat degree) (Z.of_nat i);
      do ev <- push_back ev (smul (sofN b) cfactor);
      Ok (ev, smul cfactor value)) ([], s1);
  do '(ev, _) <- for_up 0 (w64 (degree + 1)) (fun i '(ev, cfactor) =>
      do e <- get ev (w64_sub degree i);
      do ev' <- set ev (w64_sub degree i) (smul e cfactor);
      Ok (ev', smul cfactor inv_value)) (ev, s1);
  Ok ev.

(** src/utils/algorithms/bernstein_polynomial.hpp:92-135  EvaluateDerivative *)
Definition BernsteinEvaluateDerivative_64 (degree : nat) (value : T) (deriv : nat)
  : res (list T) :=
  do _ <- assert_ (degree <? MAXB);
  if degree <? deriv then do _ <- grow (w64 (degree + 1)); Ok (repeat s0 (w64 (degree + 1)))
  else if deriv =? 0 then BernsteinEvaluate_64 degree value
  else
    do basis <- BernsteinEvaluate_64 (w64_sub degree deriv) value;
    do aux <- for_up 0 (degree - w64_sub degree deriv) (fun k v => Ok (smul v (sofnat (degree - k)))) s1;
    do _ <- grow (w64 (degree + 1));
    for_up 0 (w64 (degree + 1)) (fun i_basis ev =>
      let k_min := Z.to_nat (Z.max 0
        (i32 (u64 (Z.of_nat (w64 (i_basis + deriv)) - Z.of_nat degree)))) in
      do ev <- for_up k_min (S (min i_basis deriv) - k_min) (fun k ev =>
        do b <- choose_64 MAXB (Z.of_nat deriv) (Z.of_nat k);
        do bv <- get basis (w64_sub i_basis k);
        let eval_v := smul (sofN b) bv in
        do e <- get ev i_basis;
        set ev i_basis (sadd e (if Nat.odd (w64 (k + deriv)) then sopp eval_v else eval_v))) ev;
      do e <- get ev i_basis;
      set ev i_basis (smul e aux)) (repeat s0 (w64 (degree + 1))).

(** src/utils/algorithms/recursive_combine.hpp:14-30  RecursiveCombine_<kDepth> *)
Fixpoint RecursiveCombine__64 (kDepth : nat) (factors : list (list T))
  (result : list T) (c_value : T) : res (list T) :=
  do fk <- get factors kDepth;
  for_up 0 (length fk) (fun i_entry result =>
    do x <- get fk i_entry;
    match kDepth with
    | O => push_back result (smul c_value x)
    | S k' => RecursiveCombine__64 k' factors result (smul c_value x)
    end) result.

(** src/utils/algorithms/recursive_combine.hpp:36-54  RecursiveCombine *)
Definition RecursiveCombine_64 (factors : list (list T)) : res (list T) :=
  do _ <- grow (fold_left (fun n ii => w64 (n * length ii)) factors 1);
  RecursiveCombine__64 (length factors - 1) factors [] s1.

(** Product of binomial coefficients,
    src/rational_bezier_spline.inc:307-312 and 415-420. *)
Definition binom_product_64 (lhs rhs : list nat) (dim : nat) : res N :=
  for_up 0 dim (fun i_pd (f : N) =>
    do a <- get lhs i_pd; do b <- get rhs i_pd;
    do c <- choose_64 MAXB (Z.of_nat a) (Z.of_nat b);
    Ok ((f * c) mod 2 ^ 64)%N) 1%N.
End Basis.

(** The lambdas of src/rational_bezier_spline.inc:231-243 and 337-349  local_ids_ *)
Definition local_ids_64 (nth_derivs : list nat) (req_id : nat) : res (list nat) :=
  do '(ids, _) <- for_up 0 (length nth_derivs) (fun i_pd '(ids, id) =>
    do n <- get nth_derivs i_pd;
    if n =? 0 then Ok (ids, id) else
    do l <- mod64 id (w64 (n + 1));
    do ids <- set ids i_pd l;
    do id <- div64 (w64_sub id l) (w64 (n + 1));
    Ok (ids, id)) (repeat 0 (length nth_derivs), req_id);
  Ok ids.

(** src/rational_bezier_spline.inc:246-259 and 352-365  global_ids_ *)
Definition global_ids_64 (nth_derivs req : list nat) : res nat :=
  do '(id, _) <- for_up 0 (length nth_derivs) (fun i_pd '(id, offset) =>
    do n <- get nth_derivs i_pd;
    if n =? 0 then Ok (id, offset) else
    do q <- get req i_pd;
    Ok (w64 (id + w64 (offset * q)), w64 (offset * w64 (n + 1)))) (0, 1);
  Ok id.

Section Generic.
Context (MAXB limit_w : nat) {T V : Type} {o : SOps T} {ov : VOps T V}.

(** src/bezier_spline.inc:372-387  BasisFunctionContributions *)
Definition BasisFunctionContributions_64 (s : spline V) (par_coords : list T)
  : res (list (list T)) :=
  for_up 0 (length (degrees s)) (fun par_dim factors =>
    do p <- get (degrees s) par_dim;
    do x <- get par_coords par_dim;
    do b <- BernsteinEvaluate_64 MAXB limit_w p x;
    set factors par_dim b) (repeat [] (length (degrees s))).

(** src/bezier_spline.inc:389-397  BasisFunctions *)
Definition BasisFunctions_64 (s : spline V) (par_coords : list T) : res (list T) :=
  do factors <- BasisFunctionContributions_64 s par_coords;
  RecursiveCombine_64 limit_w factors.

(** src/bezier_spline.inc:399-423  ForwardEvaluate *)
Definition ForwardEvaluate_64 (s : spline V) (par_coords : list T) : res V :=
  do factors <- BasisFunctions_64 s par_coords;
  combine_points factors (control_points s).

(** src/bezier_spline.inc:425-442  BasisFunctionsDerivativeContributions *)
Definition BasisFunctionsDerivativeContributions_64 (s : spline V) (par_coords : list T)
  (nth_derivs : list nat) : res (list (list T)) :=
  for_up 0 (length (degrees s)) (fun par_dim factors =>
    do p <- get (degrees s) par_dim;
    do x <- get par_coords par_dim;
    do k <- get nth_derivs par_dim;
    do b <- BernsteinEvaluateDerivative_64 MAXB limit_w p x k;
    set factors par_dim b) (repeat [] (length (degrees s))).

(** src/bezier_spline.inc:444-456  BasisFunctionsDerivatives *)
Definition BasisFunctionsDerivatives_64 (s : spline V) (par_coords : list T)
  (nth_derivs : list nat) : res (list T) :=
  do factors <- BasisFunctionsDerivativeContributions_64 s par_coords nth_derivs;
  RecursiveCombine_64 limit_w factors.

(** src/bezier_spline.inc:458-484  EvaluateDerivative *)
Definition EvaluateDerivative_64 (s : spline V) (par_coords : list T)
  (nth_derivs : list nat) : res V :=
  do factors <- BasisFunctionsDerivatives_64 s par_coords nth_derivs;
  combine_points factors (control_points s).
End Generic.

Section Rational.
Context (MAXB limit limit_w limit_r : nat) {T V : Type} {o : SOps T} {ov : VOps T V}.

(** src/rational_bezier_spline.inc:155-185  UnweightedBasisFunctions *)
Definition R_UnweightedBasisFunctions_64 (r : rspline T V) (xs : list T) : res (list T) :=
  do _ <- assert_ (compatible r);
  do factors <- BasisFunctions_64 MAXB limit_w (weight_function r) xs;
  do weight_eval <- for_up 0 (length factors) (fun i acc =>
    do f <- get factors i;
    do w <- get (control_points (weight_function r)) i;
    Ok (sadd acc (smul f w))) s0;
  do inv <- divS s1 weight_eval;
  for_up 0 (length factors) (fun i fs => do f <- get fs i; set fs i (smul f inv)) factors.

(** src/rational_bezier_spline.inc:135-153  BasisFunctions *)
Definition R_BasisFunctions_64 (r : rspline T V) (xs : list T) : res (list T) :=
  do _ <- assert_ (compatible r);
  do factors <- R_UnweightedBasisFunctions_64 r xs;
  for_up 0 (length factors) (fun i fs =>
    do f <- get fs i;
    do w <- get (control_points (weight_function r)) i;
    set fs i (smul f w)) factors.

(** src/rational_bezier_spline.inc:196-218  ForwardEvaluate *)
Definition R_ForwardEvaluate_64 (r : rspline T V) (xs : list T) : res V :=
  do _ <- assert_ (compatible r);
  do factors <- BasisFunctions_64 MAXB limit_w (weighted_spline r) xs;
  combine_points factors (control_points (weighted_spline r)).

(** The double loop of src/rational_bezier_spline.inc:292-321 and 396-432, as in ModelRational.v. *)
Definition leibniz_loop_64 {X} (dflt : X) (sub : X -> T -> X -> res X) (scale : X -> res X)
  (nth_derivs : list nat) (number_of_derivs : nat) (A : list X) (w : list T)
  : res (list X) :=
  for_up 0 number_of_derivs (fun i_deriv derivs =>
    do lhs <- local_ids_64 nth_derivs i_deriv;
    do a <- get A i_deriv;
    do derivs <- set derivs i_deriv a;
    do derivs <- for_up 1 i_deriv (fun j_deriv derivs =>
      do rhs <- local_ids_64 nth_derivs j_deriv;
      do skip <- is_not_subset lhs rhs (length nth_derivs);
      if skip then Ok derivs else
      do b <- binom_product_64 MAXB lhs rhs (length nth_derivs);
      do wj <- get w j_deriv;
      do y <- get derivs (w64_sub i_deriv j_deriv);
      do x <- get derivs i_deriv;
      do x <- sub x (smul (sofN b) wj) y;
      set derivs i_deriv x) derivs;
    do x <- get derivs i_deriv;
    do x <- scale x;
    set derivs i_deriv x) (repeat dflt number_of_derivs).

(** src/rational_bezier_spline.inc:220-322  EvaluateDerivative *)
Definition R_EvaluateDerivative_64 (r : rspline T V) (xs : list T) (nth_derivs : list nat)
  : res V :=
  do g <- global_ids_64 nth_derivs nth_derivs;
  let number_of_derivs := w64 (g + 1) in
  if limit <? number_of_derivs then Throw else
  if limit_w <? number_of_derivs then Throw else
  do '(A, w) <- for_up 0 number_of_derivs (fun i '(A, w) =>
    do req <- local_ids_64 nth_derivs i;
    do a <- EvaluateDerivative_64 MAXB limit_w (weighted_spline r) xs req;
    do A <- set A i a;
    do b <- EvaluateDerivative_64 MAXB limit_w (weight_function r) xs req;
    do w <- set w i b;
    Ok (A, w)) (repeat v0 number_of_derivs, repeat s0 number_of_derivs);
  do w0 <- get w 0;
  do inv <- divS s1 w0;
  do derivs <- leibniz_loop_64 v0 (fun x c y => Ok (vsub x (vscale c y)))
    (fun x => Ok (vscale inv x)) nth_derivs number_of_derivs A w;
  get derivs (w64_sub number_of_derivs 1).

(** src/rational_bezier_spline.inc:324-435  BasisFunctionsDerivatives *)
Definition R_BasisFunctionsDerivatives_64 (r : rspline T V) (xs : list T)
  (nth_derivs : list nat) : res (list T) :=
  do g <- global_ids_64 nth_derivs nth_derivs;
  let number_of_derivs := w64 (g + 1) in
  let n_basis := number_of_control_points (weighted_spline r) in
  if limit_r <? number_of_derivs then Throw else
  if limit_w <? number_of_derivs then Throw else
  do '(A, w) <- for_up 0 number_of_derivs (fun i '(A, w) =>
    do req <- local_ids_64 nth_derivs i;
    do a <- BasisFunctionsDerivatives_64 MAXB limit_w (weighted_spline r) xs req;
    do A <- set A i a;
    for_up 0 n_basis (fun i_basis '(A, w) =>
      do weight <- get (control_points (weight_function r)) i_basis;
      do row <- get A i;
      do x <- get row i_basis;
      do wi <- get w i;
      do w <- set w i (sadd wi (smul weight x));
      do row <- set row i_basis (smul x weight);
      do A <- set A i row;
      Ok (A, w)) (A, w)) (repeat [] number_of_derivs, repeat s0 number_of_derivs);
  do w0 <- get w 0;
  do inv <- divS s1 w0;
  do derivs <- leibniz_loop_64 []
    (fun x c y => for_up 0 n_basis (fun i x =>
       do a <- get x i; do b <- get y i; set x i (ssub a (smul c b))) x)
    (fun x => for_up 0 n_basis (fun i x => do a <- get x i; set x i (smul a inv)) x)
    nth_derivs number_of_derivs A w;
  get derivs (w64_sub number_of_derivs 1).
End Rational.
