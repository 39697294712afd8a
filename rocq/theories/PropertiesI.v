(** Properties C37-C39: derivatives of rational splines. *)
From Coq Require Import Arith Lia List ZArith NArith Bool QArith Qcanon Reals.
From Verif Require Import Prelude Scalar Spec SpecSpline SpecReal Coord ModelBasis ModelSpline Examples ModelRational
  SpecRational ClaimsI.
Import ListNotations.
Local Open Scope nat_scope.

(** The function 2t / (1 + t). *)
Definition ex_rd : rspline Qc Qc :=
  mkR (mkSpline [1] 2 [1] [Q2Qc 0; Q2Qc 2]) (mkSpline [1] 2 [1] [Q2Qc 1; Q2Qc 2]).

(** C37: the derivative by the Leibniz recursion. *)
(** Missing from the full property: orders not below the size of the table of binomial
    coefficients (refuted by the next theorem), and orders whose products of binomial coefficients
    do not fit into 64 bits. *)
Theorem C37_evaluate_derivative_partial : forall (V : Type) (ov : VOps R V) (M : VMod R V) (MAXB : nat)
  (r : rspline R V) (orders : list nat),
  MAXB <= 68 -> rwf r -> length orders = length (rdegrees r) ->
  Forall (fun p => p < MAXB) (rdegrees r) -> Forall (fun k => k < MAXB) orders -> binoms_fit orders ->
  exists f g, (forall xs : list R, rdomain r xs ->
      R_Evaluate r xs = Ok (f xs) /\ R_EvaluateDerivative MAXB r xs orders = Ok (g xs)) /\
    forall (phi : V -> R) dirs, linear_form phi -> directions_of orders dirs ->
      mixed (rdomain r) dirs (fun xs => phi (f xs)) (fun xs => phi (g xs)).
Proof. exact c37_evaluate_derivative_partial. Qed.
Print Assumptions C37_evaluate_derivative_partial.
Theorem C37_large_order_refuted : forall MAXB : nat, 1 < MAXB ->
  exists (r : rspline Qc Qc) (xs : list Qc),
    rwf r /\ rdomain r xs /\ Forall (fun p => p < MAXB) (rdegrees r) /\
    forall v, R_EvaluateDerivative MAXB r xs [MAXB] <> Ok v.
Proof. exact c37_large_order_refuted. Qed.
Print Assumptions C37_large_order_refuted.
Theorem C37_binomials_fit : forall orders : list nat,
  list_sum orders <= 63 \/
  (length orders <= 1 /\ Forall (fun k => k < 68) orders) \/
  (length orders <= 2 /\ Forall (fun k => k < 35) orders) \/
  (length orders <= 3 /\ Forall (fun k => k < 24) orders) -> binoms_fit orders.
Proof. exact c37_binomials_fit. Qed.
Print Assumptions C37_binomials_fit.
Example C37_case : rwf ex_rd /\ rdomain ex_rd [Q2Qc 1] /\ Forall (fun p => p < 4) (rdegrees ex_rd) /\
  binoms_fit [2] /\ R_EvaluateDerivative 4 ex_rd [Q2Qc 1] [1] = Ok (Q2Qc (1 # 2)) /\
  R_EvaluateDerivative 4 ex_rd [Q2Qc 1] [2] = Ok (Q2Qc (-1 # 2)).
Proof.
  split; [case_|]. split; [split; [reflexivity|vm_compute; discriminate]|]. split; [case_|].
  split; [apply c37_binomials_fit; left; simpl; lia|]. case_.
Qed.

(** C38: derivatives of the basis functions. *)
Theorem C38_basis_derivatives : forall (T V : Type) (o : SOps T) (ov : VOps T V) (F : SField T) (M : VMod T V)
  (MAXB : nat) (r : rspline T V) (xs : list T) (orders : list nat) (pts : list V),
  MAXB <= 68 -> rwf r -> rdomain r xs -> length orders = length (rdegrees r) ->
  Forall (fun p => p < MAXB) (rdegrees r) -> Forall (fun k => k < MAXB) orders ->
  (forall i, i < n_coeffs (rdegrees r) -> nth i (control_points (weighted_spline r)) v0 =
     vscale (nth i (control_points (weight_function r)) s0) (nth i pts v0)) ->
  exists bs : list T, R_BasisFunctionsDerivatives MAXB r xs orders = Ok bs /\
    length bs = n_coeffs (rdegrees r) /\
    R_EvaluateDerivative MAXB r xs orders =
      Ok (vsum (length bs) (fun i => vscale (nth i bs s0) (nth i pts v0))).
Proof. exact c38_basis_derivatives. Qed.
Print Assumptions C38_basis_derivatives.
Example C38_case : R_BasisFunctionsDerivatives 4 ex_rd [Q2Qc 1] [1] = Ok [Q2Qc (-1 # 2); Q2Qc (1 # 2)] /\
  forall i, i < 2 -> nth i (control_points (weighted_spline ex_rd)) v0 =
    vscale (nth i (control_points (weight_function ex_rd)) s0) (nth i [Q2Qc 0; Q2Qc 1] v0).
Proof. split; [case_|]. intros [|[|i]] Hi; [case_|case_|lia]. Qed.

(** C39: the derivative spline by the quotient rule. *)
Theorem C39_derivative_spline : forall (V : Type) (ov : VOps R V) (M : VMod R V) (MAXB fuel : nat)
  (r : rspline R V) (orders : list nat),
  MAXB <= 68 -> rwf r -> length orders = length (rdegrees r) ->
  (forall k, k < length orders -> 0 < nth k orders 0 -> 1 <= nth k (rdegrees r) 0) ->
  let final := map (Nat.mul (2 ^ list_sum orders)) (rdegrees r) in
  Forall (fun p => p < MAXB) final -> (Z.of_nat (n_coeffs final) < 2 ^ 31)%Z -> list_max final + 1 < fuel ->
  exists r' f g, R_DerivativeWRT MAXB fuel r orders = Ok r' /\ rwf r' /\ rdegrees r' = final /\
    (forall xs : list R, rdomain r xs -> R_Evaluate r xs = Ok (f xs) /\ R_Evaluate r' xs = Ok (g xs)) /\
    forall (phi : V -> R) dirs, linear_form phi -> directions_of orders dirs ->
      mixed (rdomain r) dirs (fun xs => phi (f xs)) (fun xs => phi (g xs)).
Proof. exact c39_derivative_spline. Qed.
Print Assumptions C39_derivative_spline.
Example C39_case : rwf ex_rd /\ Forall (fun p => p < 5) (map (Nat.mul (2 ^ 2)) (rdegrees ex_rd)) /\
  (exists r', R_DerivativeWRT 5 6 ex_rd [2] = Ok r' /\ rdegrees r' = [4] /\
     R_Evaluate r' [Q2Qc 1] = Ok (Q2Qc (-1 # 2))).
Proof. do 2 (split; [case_|]). eexists. split; [vm_compute; reflexivity|]. split; case_. Qed.
