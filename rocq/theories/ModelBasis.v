(** Model of src/utils: binomial table, Bernstein polynomials, RecursiveCombine.

    The macro MAX_BINOMIAL_DEGREE (src/utils/fastbinomialcoefficient.hpp:33-35) is the
    parameter [MAXB].  The conversion of table arguments to [unsigned int] is not
    modelled (arguments are degrees, which are asserted to be below [MAXB]). *)
From Coq Require Import Arith Lia List ZArith NArith Bool.
From Verif Require Import Prelude Scalar.
Import ListNotations.

(** Addition of two std::size_t values (64 bit). *)
Definition addN64 (a b : N) : N := ((a + b) mod 2 ^ 64)%N.

(** src/utils/binomialcoefficientlookuptablecreator.hpp:38
    n_values *)
Definition n_values (maxb : nat) : nat := maxb * (maxb + 1) / 2.

(** src/utils/binomialcoefficientlookuptablecreator.hpp:40-57
    calculate_table *)
Definition calculate_table (maxb : nat) : res (list N) :=
  do t <- set (repeat 0%N (n_values maxb)) 0 1%N;
  for_up 0 maxb (fun i t =>
    let offset := i * (i + 1) / 2 in
    for_up 0 (i + 1) (fun j t =>
      if (i =? j) || (j =? 0) then set t (offset + j) 1%N
      else
        do a <- get t (offset - i + j - 1);
        do b <- get t (offset - i + j);
        set t (offset + j) (addN64 a b)) t) t.

Section Basis.
Context (MAXB : nat).

(** src/utils/fastbinomialcoefficient.hpp:60-64
    FastBinomialCoefficient::choose *)
Definition choose (n i : nat) : res N :=
  do _ <- assert_ (n <? MAXB);
  do t <- calculate_table MAXB;
  get t (n * (n + 1) / 2 + i).

Context {T : Type} {o : SOps T}.

(** src/utils/algorithms/bernstein_polynomial.hpp:52-82
    BernsteinPolynomial::Evaluate *)
Definition BernsteinEvaluate (degree : nat) (value : T) : res (list T) :=
  do _ <- assert_ (degree <? MAXB);
  let inv_value := ssub s1 value in
  do '(ev, _) <- for_up 0 (degree + 1) (fun i '(ev, cfactor) =>
      do b <- choose degree i;
      Ok (ev ++ [smul (sofN b) cfactor], smul cfactor value)) ([], s1);
  do '(ev, _) <- for_up 0 (degree + 1) (fun i '(ev, cfactor) =>
      do e <- get ev (degree - i);
      do ev' <- set ev (degree - i) (smul e cfactor);
      Ok (ev', smul cfactor inv_value)) (ev, s1);
  Ok ev.

(** src/utils/algorithms/bernstein_polynomial.hpp:92-135
    BernsteinPolynomial::EvaluateDerivative.  The lower summation bound goes
    through an unsigned 64-bit difference and a conversion to int. *)
Definition BernsteinEvaluateDerivative (degree : nat) (value : T) (deriv : nat)
  : res (list T) :=
  do _ <- assert_ (degree <? MAXB);
  if degree <? deriv then Ok (repeat s0 (degree + 1))
  else if deriv =? 0 then BernsteinEvaluate degree value
  else
    do basis <- BernsteinEvaluate (degree - deriv) value;
    do aux <- for_up 0 deriv (fun k v => Ok (smul v (sofnat (degree - k)))) s1;
    for_up 0 (degree + 1) (fun i_basis ev =>
      let k_min := Z.to_nat (Z.max 0
        (i32 (u64 (Z.of_nat i_basis + Z.of_nat deriv - Z.of_nat degree)))) in
      do ev <- for_up k_min (S (min i_basis deriv) - k_min) (fun k ev =>
        do b <- choose deriv k;
        do bv <- get basis (i_basis - k);
        let eval_v := smul (sofN b) bv in
        do e <- get ev i_basis;
        set ev i_basis (sadd e (if Nat.odd (k + deriv) then sopp eval_v else eval_v))) ev;
      do e <- get ev i_basis;
      set ev i_basis (smul e aux)) (repeat s0 (degree + 1)).

(** src/utils/algorithms/recursive_combine.hpp:14-30
    RecursiveCombine_<kDepth> *)
Fixpoint RecursiveCombine_ (kDepth : nat) (factors : list (list T))
  (result : list T) (c_value : T) : res (list T) :=
  do fk <- get factors kDepth;
  for_up 0 (length fk) (fun i_entry result =>
    do x <- get fk i_entry;
    match kDepth with
    | O => Ok (result ++ [smul c_value x])
    | S k' => RecursiveCombine_ k' factors result (smul c_value x)
    end) result.

(** src/utils/algorithms/recursive_combine.hpp:36-54
    RecursiveCombine ([reserve] has no observable effect). *)
Definition RecursiveCombine (factors : list (list T)) : res (list T) :=
  RecursiveCombine_ (length factors - 1) factors [] s1.

End Basis.
