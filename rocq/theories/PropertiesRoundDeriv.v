(** Property C107: rounding errors of derivatives of basis functions and of EvaluateDerivative. *)
From Coq Require Import Arith Lia List Bool ZArith Reals Lra.
From Verif Require Import Prelude Scalar Spec SpecSpline Coord ModelBasis ModelSpline
  ModelRound SpecRound SpecRoundDeriv ProofRound ProofEval ProofDeriv ClaimsU PropertiesU ClaimsRoundDeriv.
Import ListNotations.
Local Open Scope R_scope.

(** C107: the sum of the errors of all basis functions, and the error of the derivative. *)
Theorem C107_bernstein : forall p rnd MAXB q x k, (0 < p)%nat -> nearest p rnd -> (MAXB <= 68)%nat -> (q < MAXB)%nat -> 0 <= x <= 1 ->
  exists l l', BernsteinEvaluateDerivative MAXB q x k = Ok l /\ BernsteinEvaluateDerivative_rnd rnd MAXB q x k = Ok l' /\
    length l = S q /\ length l' = S q /\ total_error l' l <= gamma p (2 * q + k + 7) * (falling q k * 2 ^ k).
Proof. exact c107_bernstein. Qed.
Print Assumptions C107_bernstein.
Theorem C107_basis : forall p rnd V MAXB (s : spline V) xs orders, (0 < p)%nat -> nearest p rnd -> (MAXB <= 68)%nat ->
  wf s -> length xs = length (degrees s) -> length orders = length (degrees s) -> Forall (fun q => (q < MAXB)%nat) (degrees s) -> in_unit_box xs ->
  exists l l', BasisFunctionsDerivatives MAXB s xs orders = Ok l /\ BasisFunctionsDerivatives_rnd rnd MAXB s xs orders = Ok l' /\
    length l = n_coeffs (degrees s) /\ length l' = n_coeffs (degrees s) /\
    total_error l' l <= gamma p (derivative_basis_roundings (degrees s) orders) * derivative_scale (degrees s) orders.
Proof. exact c107_basis. Qed.
Print Assumptions C107_basis.
Theorem C107_evaluate : forall p rnd MAXB d (s : spline (point R d)) xs orders, (0 < p)%nat -> nearest p rnd -> (MAXB <= 68)%nat ->
  wf s -> length xs = length (degrees s) -> length orders = length (degrees s) -> Forall (fun q => (q < MAXB)%nat) (degrees s) -> in_unit_box xs ->
  exists e v, EvaluateDerivative_rnd rnd MAXB s xs orders = Ok e /\ EvaluateDerivative MAXB s xs orders = Ok v /\
    forall c B, (c < d)%nat -> coord_bound s c B ->
      Rabs (coord d e c - coord d v c) <= gamma p (evaluate_derivative_roundings (degrees s) orders) * (derivative_scale (degrees s) orders * B).
Proof. exact c107_evaluate. Qed.
Print Assumptions C107_evaluate.
Theorem C107_evaluate_scalar : forall p rnd MAXB (s : spline R) xs orders B, (0 < p)%nat -> nearest p rnd -> (MAXB <= 68)%nat ->
  wf s -> length xs = length (degrees s) -> length orders = length (degrees s) -> Forall (fun q => (q < MAXB)%nat) (degrees s) -> in_unit_box xs ->
  coeff_bound s B ->
  exists e v, EvaluateDerivative_rnd_s rnd MAXB s xs orders = Ok e /\ EvaluateDerivative MAXB s xs orders = Ok v /\
    Rabs (e - v) <= gamma p (evaluate_derivative_roundings (degrees s) orders) * (derivative_scale (degrees s) orders * B).
Proof. exact c107_evaluate_scalar. Qed.
Print Assumptions C107_evaluate_scalar.
Theorem C107_agree : forall p rnd MAXB d (s : spline (point R d)) xs orders, (0 < p)%nat -> nearest p rnd -> (MAXB <= 68)%nat ->
  wf s -> length xs = length (degrees s) -> length orders = length (degrees s) -> Forall2 le orders (degrees s) -> Forall (fun q => (q < MAXB)%nat) (degrees s) -> in_unit_box xs ->
  exists e r a, EvaluateDerivative_rnd rnd MAXB s xs orders = Ok e /\ DerivativeWRT_rnd rnd MAXB s orders = Ok r /\ Evaluate_rnd rnd r xs = Ok a /\
    forall c B, (c < d)%nat -> coord_bound s c B ->
      Rabs (coord d e c - coord d a c) <=
        (gamma p (evaluate_derivative_roundings (degrees s) orders) + gamma p (derivative_roundings orders + casteljau_roundings (degrees r))) *
        (derivative_scale (degrees s) orders * B).
Proof. exact c107_agree. Qed.
Print Assumptions C107_agree.
(** The derivative of a parabola in the middle is -6, up to a few units in the last place. *)
Example C107_case :
  let s : spline R := mkSpline [2%nat] 3 [1%nat] [1; 3; -5] in
  wf s /\ coeff_bound s 5 /\ in_unit_box [1 / 2] /\ derivative_scale (degrees s) [1%nat] = 4 /\ evaluate_derivative_roundings (degrees s) [1%nat] = 16%nat /\
  EvaluateDerivative 3 s [1 / 2] [1%nat] = Ok (-6) /\
  exists e, EvaluateDerivative_rnd_s (round_to 53) 3 s [1 / 2] [1%nat] = Ok e /\ Rabs (e - -6) <= 640 / 2 ^ 53.
Proof.
  intros s.
  assert (Hw : wf s) by (repeat split; discriminate).
  assert (HR : nearest 53 (round_to 53)) by (apply nearest_round_to; lia).
  assert (HB : coeff_bound s 5).
  { intros i Hi. change (n_coeffs (degrees s)) with 3%nat in Hi. destruct i as [|[|[|i]]]; [| | |lia]; cbn.
    - rewrite Rabs_right; lra. - rewrite Rabs_right; lra. - rewrite Rabs_left; lra. }
  assert (HS : derivative_scale (degrees s) [1%nat] = 4) by (cbn; lra).
  assert (HU : in_unit_box [1 / 2]) by (repeat constructor; lra).
  assert (EX : EvaluateDerivative 3 s [1 / 2] [1%nat] = Ok (-6)).
  { assert (L : (3 <= 68)%nat) by lia. etransitivity; [apply (EvaluateDerivative_ok 3 L s [1 / 2] [1%nat]); auto; repeat constructor; lia|].
    f_equal. cbn. field. }
  do 4 (split; [assumption|]). split; [reflexivity|]. split; [exact EX|].
  destruct (C107_evaluate_scalar 53 (round_to 53) 3 s [1 / 2] [1%nat] 5) as (e & v & E & Ev & K); auto; try lia;
    try (repeat constructor; lia).
  exists e. split; [exact E|]. rewrite EX in Ev. injection Ev as <-.
  assert (G : 0 <= gamma 53 16 <= 2 * INR 16 * / 2 ^ 53) by (apply C71_gamma; simpl; lra). simpl in G.
  rewrite HS in K. change (evaluate_derivative_roundings (degrees s) [1%nat]) with 16%nat in K. lra.
Qed.
