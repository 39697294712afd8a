(** Property C102: the basis functions and ForwardEvaluate with a bounded exponent range. *)
From Coq Require Import Arith Lia List Bool ZArith Reals Lra.
From Verif Require Import Prelude Scalar Spec SpecSpline Coord ModelBasis ModelSpline
  ModelRound SpecRound ModelIEEE SpecIEEE ModelIEEEFwd SpecIEEEFwd ProofRound ProofEval ProofIEEE ClaimsU ClaimsIEEE ClaimsIEEEFwd.
Import ListNotations.
Local Open Scope R_scope.

(** C102: basis functions lose digits only to underflow, and ForwardEvaluate needs a margin below the largest number. *)
Theorem C102_basis : forall F rnd V MAXB (s : spline V) xs, reasonable F -> nearest_on_grid F rnd -> (MAXB <= 68)%nat ->
  wf s -> length xs = length (degrees s) -> Forall (fun q => (q < MAXB)%nat) (degrees s) ->
  in_unit_box xs -> Forall (on_grid F) xs -> basis_fits F (degrees s) ->
  exists l l', BasisFunctions MAXB s xs = Ok l /\ BasisFunctions_ieee F rnd MAXB s (map Fin xs) = Ok (map Fin l') /\
    Forall2 (fun y x => machine F y /\ 0 <= y /\
      Rabs (y - x) <= gamma (prec F) (basis_roundings (degrees s)) * x +
                      (1 + / 2 ^ prec F) ^ basis_roundings (degrees s) * basis_loss F (degrees s)) l' l.
Proof. exact c102_basis. Qed.
Print Assumptions C102_basis.
(** Missing from the full property: coefficients up to the largest finite number; the hypothesis on the magnitude
    leaves a margin. Without it ForwardEvaluate can overflow although the exact value is the
    largest finite number ([C102_forward_refuted]). *)
Theorem C102_forward_partial : forall F rnd MAXB d (s : spline (point R d)) xs, reasonable F -> nearest_on_grid F rnd -> (MAXB <= 68)%nat ->
  wf s -> length xs = length (degrees s) -> Forall (fun q => (q < MAXB)%nat) (degrees s) ->
  in_unit_box xs -> Forall (on_grid F) xs -> basis_fits F (degrees s) -> machine_points F s ->
  (forall k, (k < d)%nat -> (1 + / 2 ^ prec F) ^ forward_roundings (degrees s) * magnitude s xs k + forward_loss F (degrees s) (abs_sum s k) <= omega F) ->
  exists e, ForwardEvaluate_ieee F rnd MAXB (fin_spline s) (map Fin xs) = Ok (fin_point d e) /\ forall k, (k < d)%nat ->
    machine F (coord d e k) /\
    Rabs (coord d e k - coord d (value_at s xs) k) <=
      gamma (prec F) (forward_roundings (degrees s)) * magnitude s xs k + forward_loss F (degrees s) (abs_sum s k).
Proof. exact c102_forward_partial. Qed.
Print Assumptions C102_forward_partial.
(** Missing from the full property: the same margin. *)
Theorem C102_forward_scalar_partial : forall F rnd MAXB (s : spline R) xs, reasonable F -> nearest_on_grid F rnd -> (MAXB <= 68)%nat ->
  wf s -> length xs = length (degrees s) -> Forall (fun q => (q < MAXB)%nat) (degrees s) ->
  in_unit_box xs -> Forall (on_grid F) xs -> basis_fits F (degrees s) -> machine_coeffs F s ->
  (1 + / 2 ^ prec F) ^ forward_roundings (degrees s) * magnitude_s s xs + forward_loss F (degrees s) (abs_sum_s s) <= omega F ->
  exists e, ForwardEvaluate_ieee_s F rnd MAXB (fin_spline_s s) (map Fin xs) = Ok (Fin e) /\ machine F e /\
    Rabs (e - value_at s xs) <= gamma (prec F) (forward_roundings (degrees s)) * magnitude_s s xs + forward_loss F (degrees s) (abs_sum_s s).
Proof. exact c102_forward_scalar_partial. Qed.
Print Assumptions C102_forward_scalar_partial.
(** Coefficients up to half the largest number are within the margin. *)
Theorem C102_half : forall F rnd MAXB d (s : spline (point R d)) xs, reasonable F -> roomy F -> nearest_on_grid F rnd -> (MAXB <= 68)%nat ->
  wf s -> length xs = length (degrees s) -> Forall (fun q => (q < MAXB)%nat) (degrees s) ->
  in_unit_box xs -> Forall (on_grid F) xs -> INR (forward_roundings (degrees s)) * / 2 ^ prec F <= 1 / 4 ->
  machine_points F s -> (forall i k, (i < n_coeffs (degrees s))%nat -> (k < d)%nat -> Rabs (coord d (nth i (control_points s) v0) k) <= omega F / 2) ->
  exists e, ForwardEvaluate_ieee F rnd MAXB (fin_spline s) (map Fin xs) = Ok (fin_point d e) /\ forall k, (k < d)%nat ->
    machine F (coord d e k) /\
    Rabs (coord d e k - coord d (value_at s xs) k) <=
      gamma (prec F) (forward_roundings (degrees s)) * magnitude s xs k + forward_loss F (degrees s) (abs_sum s k).
Proof. exact c102_half. Qed.
Print Assumptions C102_half.
Theorem C102_half_scalar : forall F rnd MAXB (s : spline R) xs, reasonable F -> roomy F -> nearest_on_grid F rnd -> (MAXB <= 68)%nat ->
  wf s -> length xs = length (degrees s) -> Forall (fun q => (q < MAXB)%nat) (degrees s) ->
  in_unit_box xs -> Forall (on_grid F) xs -> INR (forward_roundings (degrees s)) * / 2 ^ prec F <= 1 / 4 ->
  machine_coeffs F s -> Forall (fun c => Rabs c <= omega F / 2) (control_points s) ->
  exists e, ForwardEvaluate_ieee_s F rnd MAXB (fin_spline_s s) (map Fin xs) = Ok (Fin e) /\ machine F e /\
    Rabs (e - value_at s xs) <= gamma (prec F) (forward_roundings (degrees s)) * magnitude_s s xs + forward_loss F (degrees s) (abs_sum_s s).
Proof. exact c102_half_scalar. Qed.
Print Assumptions C102_half_scalar.
Theorem C102_forward_refuted : forall F, F = binary64 \/ F = binary32 ->
  exists (s : spline R) x, wf s /\ degrees s = [2%nat] /\ machine_coeffs F s /\ on_grid F x /\ 0 <= x <= 1 /\ value_at s [x] = omega F /\
  forall rnd, nearest_on_grid F rnd ->
    ForwardEvaluate_ieee_s F rnd 30 (fin_spline_s s) [Fin x] = Ok Exc /\
    exists e, Evaluate_ieee_s F rnd (fin_spline_s s) [Fin x] = Ok (Fin e).
Proof. exact c102_forward_refuted. Qed.
Print Assumptions C102_forward_refuted.
(** A positive basis function can become zero and take a value of ordinary size with it; de Casteljau returns the value. *)
Theorem C102_lost : exists (s : spline R) x, wf s /\ degrees s = [2%nat] /\ machine_coeffs binary64 s /\ on_grid binary64 x /\ 0 <= x <= 1 /\
  value_at s [x] = / 2 ^ 200 /\
  forall rnd, nearest_on_grid binary64 rnd ->
    ForwardEvaluate_ieee_s binary64 rnd 30 (fin_spline_s s) [Fin x] = Ok (Fin 0) /\
    Evaluate_ieee_s binary64 rnd (fin_spline_s s) [Fin x] = Ok (Fin (/ 2 ^ 200)).
Proof. exact c102_lost. Qed.
Print Assumptions C102_lost.
Theorem C102_formats : roomy binary64 /\ roomy binary32.
Proof. exact c102_formats. Qed.
Print Assumptions C102_formats.
(** A quadratic with coefficients of half the largest double. *)
Example C102_case :
  let M := omega binary64 / 2 in
  let s : spline R := mkSpline [2%nat] 3 [1%nat] [M; - M; M] in
  wf s /\ machine_coeffs binary64 s /\ Forall (fun c => Rabs c <= omega binary64 / 2) (control_points s) /\
  in_unit_box [5 / 8] /\ Forall (on_grid binary64) [5 / 8] /\ INR (forward_roundings [2%nat]) * / 2 ^ prec binary64 <= 1 / 4 /\
  value_at s [5 / 8] = M / 16 /\
  forall rnd, nearest_on_grid binary64 rnd -> exists e,
    ForwardEvaluate_ieee_s binary64 rnd 30 (fin_spline_s s) [Fin (5 / 8)] = Ok (Fin e) /\ machine binary64 e /\
    Rabs (e - M / 16) <= gamma 53 11 * M + forward_loss binary64 [2%nat] (abs_sum_s s).
Proof.
  intros M s. assert (HF : reasonable binary64) by apply c89_formats.
  assert (PM : 0 < omega binary64) by (apply omega_pos; auto).
  assert (GM : on_grid binary64 M).
  { unfold M. replace (omega binary64 / 2) with (omega binary64 * powerRZ 2 (-1)) by (simpl powerRZ; lra).
    apply grid_omega_shift; auto. simpl; lia. }
  assert (Hs : wf s) by (repeat split; discriminate).
  assert (A1 : Rabs M = M) by (apply Rabs_right; unfold M; lra).
  assert (A2 : Rabs (- M) = M) by (rewrite Rabs_Ropp; auto).
  assert (m1 : machine binary64 M) by (split; [auto|rewrite A1; unfold M; lra]).
  assert (m2 : machine binary64 (- M)) by (split; [apply grid_opp; auto|rewrite A2; unfold M; lra]).
  assert (Ms : machine_coeffs binary64 s) by (unfold machine_coeffs, s; cbn [control_points]; auto).
  assert (Hh : Forall (fun c => Rabs c <= omega binary64 / 2) (control_points s)).
  { unfold s; cbn [control_points]. repeat (apply Forall_cons || apply Forall_nil); rewrite ?A1, ?A2; apply Rle_refl. }
  assert (GX : Forall (on_grid binary64) [5 / 8]).
  { constructor; [|constructor]. exists 5%Z, (-3)%Z. split; [reflexivity|]. split; [simpl; lia|simpl; lra]. }
  assert (HX : in_unit_box [5 / 8]) by (constructor; [lra|constructor]).
  assert (HS : INR (forward_roundings [2%nat]) * / 2 ^ prec binary64 <= 1 / 4).
  { change (forward_roundings [2%nat]) with 11%nat. change (prec binary64) with 53%nat. simpl. lra. }
  assert (Vs : value_at s [5 / 8] = M / 16) by (unfold s; clear; generalize M; intros m; cbn; lra).
  do 7 (split; [assumption|]). intros rnd HR.
  destruct (C102_half_scalar binary64 rnd 30 s [5 / 8] HF (proj1 C102_formats) HR ltac:(lia) Hs eq_refl ltac:(repeat constructor) HX GX HS Ms Hh) as (e & E & B & K).
  exists e. split; [exact E|]. split; [exact B|]. rewrite Vs in K.
  assert (EM : magnitude_s s [5 / 8] = M).
  { unfold s. revert A1 A2. clear. generalize M. intros m A1 A2. unfold magnitude_s. cbn. rewrite A1, A2. lra. }
  rewrite EM in K. exact K.
Qed.
