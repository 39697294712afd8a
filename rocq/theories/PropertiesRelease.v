(** Property C106: a build without assertions. *)
From Coq Require Import Arith Lia List ZArith NArith Bool Ascii String Reals Lra.
From Verif Require Import Prelude Scalar Spec SpecSpline ModelBasis ModelPoint ModelSpline ModelRational ModelScalar ModelBase64 ModelAD ModelRelease SpecRelease
  ProofIndex ClaimsRelease.
Import ListNotations.
Local Open Scope nat_scope.
Local Notation length := List.length.

(** C106: unless an assertion fails, the build without assertions behaves like the build with assertions. *)
Theorem C106_bernstein : (forall MAXB n i : nat, obeys (choose MAXB n i) (choose_release MAXB n i)) /\
  (forall (MAXB : nat) (T : Type) (o : SOps T) (degree : nat) (value : T), obeys (BernsteinEvaluate MAXB degree value) (BernsteinEvaluate_release MAXB degree value)) /\
  (forall (MAXB : nat) (T : Type) (o : SOps T) (degree : nat) (value : T) (deriv : nat), obeys (BernsteinEvaluateDerivative MAXB degree value deriv) (BernsteinEvaluateDerivative_release MAXB degree value deriv)).
Proof. exact c106_bernstein. Qed.
Print Assumptions C106_bernstein.
Theorem C106_spline : (forall (V : Type) (deg : list nat) (points : list V), obeys (Spline_deg_points deg points) (Spline_deg_points_release deg points)) /\
  (forall (T V : Type) (o : SOps T) (ov : VOps T V) (MAXB : nat) (s : spline V) (orders : list nat), obeys (DerivativeWRT MAXB s orders) (DerivativeWRT_release MAXB s orders)) /\
  (forall (T V : Type) (o : SOps T) (MAXB : nat) (s : spline V) (par_coords : list T), obeys (BasisFunctionContributions MAXB s par_coords) (BasisFunctionContributions_release MAXB s par_coords)) /\
  (forall (T V : Type) (o : SOps T) (MAXB : nat) (s : spline V) (par_coords : list T), obeys (BasisFunctions MAXB s par_coords) (BasisFunctions_release MAXB s par_coords)) /\
  (forall (T V : Type) (o : SOps T) (ov : VOps T V) (MAXB : nat) (s : spline V) (par_coords : list T), obeys (ForwardEvaluate MAXB s par_coords) (ForwardEvaluate_release MAXB s par_coords)) /\
  (forall (T V : Type) (o : SOps T) (MAXB : nat) (s : spline V) (par_coords : list T) (nth_derivs : list nat), obeys (BasisFunctionsDerivativeContributions MAXB s par_coords nth_derivs) (BasisFunctionsDerivativeContributions_release MAXB s par_coords nth_derivs)) /\
  (forall (T V : Type) (o : SOps T) (MAXB : nat) (s : spline V) (par_coords : list T) (nth_derivs : list nat), obeys (BasisFunctionsDerivatives MAXB s par_coords nth_derivs) (BasisFunctionsDerivatives_release MAXB s par_coords nth_derivs)) /\
  (forall (T V : Type) (o : SOps T) (ov : VOps T V) (MAXB : nat) (s : spline V) (par_coords : list T) (nth_derivs : list nat), obeys (EvaluateDerivative MAXB s par_coords nth_derivs) (EvaluateDerivative_release MAXB s par_coords nth_derivs)) /\
  (forall (T V : Type) (o : SOps T) (ov : VOps T V) (depth fuel : nat) (s rhs : spline V), obeys (spline_add_rec depth fuel s rhs) (spline_add_rec_release depth fuel s rhs)) /\
  (forall (T V : Type) (o : SOps T) (ov : VOps T V) (fuel : nat) (s rhs : spline V), obeys (spline_add fuel s rhs) (spline_add_release fuel s rhs)) /\
  (forall (T V : Type) (o : SOps T) (ov : VOps T V) (fuel : nat) (s rhs : spline V), obeys (spline_sub fuel s rhs) (spline_sub_release fuel s rhs)) /\
  (forall (MAXB : nat) (T : Type) (o : SOps T) (s rhs : spline T), obeys (spline_mul_ss MAXB s rhs) (spline_mul_ss_release MAXB s rhs)) /\
  (forall (T V : Type) (o : SOps T) (ov : VOps T V) (MAXB : nat) (s : spline V) (rhs : spline T), obeys (spline_mul_vs MAXB s rhs) (spline_mul_vs_release MAXB s rhs)) /\
  (forall (T V : Type) (o : SOps T) (ov : VOps T V) (MAXB : nat) (s : spline T) (rhs : spline V), obeys (spline_mul_sv MAXB s rhs) (spline_mul_sv_release MAXB s rhs)) /\
  (forall (MAXB : nat) (T : Type) (o : SOps T) (s : spline T) (power : nat), obeys (RaisePower MAXB s power) (RaisePower_release MAXB s power)).
Proof. exact c106_spline. Qed.
Print Assumptions C106_spline.
Theorem C106_compose : (forall (MAXB : nat) (T V : Type) (o : SOps T) (ov : VOps T V) (d : nat) (outer : spline V) (inner : spline (point T d)), obeys (Compose MAXB outer inner) (Compose_release MAXB outer inner)) /\
  (forall (MAXB : nat) (T V : Type) (o : SOps T) (d : nat) (outer : spline V) (inner : spline (point T d)), obeys (ComposeSensitivity MAXB outer inner) (ComposeSensitivity_release MAXB outer inner)) /\
  (forall (MAXB : nat) (T : Type) (o : SOps T) (V : Type) (ov : VOps T V) (outer : spline V) (inner : spline T), obeys (Compose_s MAXB outer inner) (Compose_s_release MAXB outer inner)) /\
  (forall (MAXB : nat) (T V : Type) (o : SOps T) (outer : spline V) (inner : spline T), obeys (ComposeSensitivity_s MAXB outer inner) (ComposeSensitivity_s_release MAXB outer inner)).
Proof. exact c106_compose. Qed.
Print Assumptions C106_compose.
Theorem C106_rational : (forall (T V : Type) (u : spline V) (w : spline T), obeys (R_mk u w) (R_mk_release u w)) /\
  (forall (T V : Type) (o : SOps T) (s : spline V), obeys (R_of_spline s) (R_of_spline_release s)) /\
  (forall (T V : Type) (ov : VOps T V) (deg : list nat) (pts : list V) (ws : list T), obeys (R_deg_points deg pts ws) (R_deg_points_release deg pts ws)) /\
  (forall (T V : Type) (o : SOps T) (ov : VOps T V) (r : rspline T V) (deg : list nat), obeys (R_UpdateDegrees r deg) (R_UpdateDegrees_release r deg)) /\
  (forall (T V : Type) (o : SOps T) (MAXB : nat) (r : rspline T V) (xs : list T), obeys (R_UnweightedBasisFunctions MAXB r xs) (R_UnweightedBasisFunctions_release MAXB r xs)) /\
  (forall (T V : Type) (o : SOps T) (MAXB : nat) (r : rspline T V) (xs : list T), obeys (R_BasisFunctions MAXB r xs) (R_BasisFunctions_release MAXB r xs)) /\
  (forall (T V : Type) (o : SOps T) (ov : VOps T V) (MAXB : nat) (r : rspline T V) (xs : list T), obeys (R_ForwardEvaluate MAXB r xs) (R_ForwardEvaluate_release MAXB r xs)) /\
  (forall (T V : Type) (o : SOps T) (ov : VOps T V) (MAXB : nat) (r : rspline T V) (xs : list T) (nth_derivs : list nat), obeys (R_EvaluateDerivative MAXB r xs nth_derivs) (R_EvaluateDerivative_release MAXB r xs nth_derivs)) /\
  (forall (T V : Type) (o : SOps T) (MAXB : nat) (r : rspline T V) (xs : list T) (nth_derivs : list nat), obeys (R_BasisFunctionsDerivatives MAXB r xs nth_derivs) (R_BasisFunctionsDerivatives_release MAXB r xs nth_derivs)) /\
  (forall (T V : Type) (o : SOps T) (ov : VOps T V) (r : rspline T V) (par_dim : nat), obeys (R_OrderElevate r par_dim) (R_OrderElevate_release r par_dim)) /\
  (forall (T V : Type) (o : SOps T) (ov : VOps T V) (r : rspline T V) (plane : T) (dim : nat), obeys (R_SplitAtPosition r plane dim) (R_SplitAtPosition_release r plane dim)) /\
  (forall (T V : Type) (o : SOps T) (ov : VOps T V) (r : rspline T V) (planes : list T) (dim : nat), obeys (R_SplitAtPositions r planes dim) (R_SplitAtPositions_release r planes dim)) /\
  (forall (T V : Type) (ov : VOps T V) (r : rspline T V) (c : T), obeys (R_scale_assign r c) (R_scale_assign_release r c)) /\
  (forall (T V : Type) (ov : VOps T V) (r : rspline T V) (c : T), obeys (R_scale r c) (R_scale_release r c)) /\
  (forall (T V : Type) (ov : VOps T V) (r : rspline T V) (p : V), obeys (R_shift_assign r p) (R_shift_assign_release r p)) /\
  (forall (T V : Type) (ov : VOps T V) (r : rspline T V) (p : V), obeys (R_shift r p) (R_shift_release r p)) /\
  (forall (T V : Type) (ov : VOps T V) (r : rspline T V) (p : V), obeys (R_unshift r p) (R_unshift_release r p)) /\
  (forall (T V : Type) (ov : VOps T V) (r : rspline T V), obeys (R_neg r) (R_neg_release r)) /\
  (forall (T V : Type) (o : SOps T) (ov : VOps T V) (MAXB fuel : nat) (r rhs : rspline T V), obeys (R_add MAXB fuel r rhs) (R_add_release MAXB fuel r rhs)) /\
  (forall (T V : Type) (o : SOps T) (ov : VOps T V) (MAXB fuel : nat) (r rhs : rspline T V), obeys (R_add_assign MAXB fuel r rhs) (R_add_assign_release MAXB fuel r rhs)) /\
  (forall (T V : Type) (o : SOps T) (ov : VOps T V) (MAXB fuel : nat) (r rhs : rspline T V), obeys (R_sub MAXB fuel r rhs) (R_sub_release MAXB fuel r rhs)) /\
  (forall (T V : Type) (o : SOps T) (ov : VOps T V) (MAXB fuel : nat) (r rhs : rspline T V), obeys (R_sub_assign MAXB fuel r rhs) (R_sub_assign_release MAXB fuel r rhs)) /\
  (forall (T V : Type) (o : SOps T) (ov : VOps T V) (MAXB fuel i_para_dim : nat) (r : rspline T V), obeys (R_derivative_step MAXB fuel i_para_dim r) (R_derivative_step_release MAXB fuel i_para_dim r)) /\
  (forall (T V : Type) (o : SOps T) (ov : VOps T V) (MAXB fuel : nat) (r : rspline T V) (orders : list nat), obeys (R_DerivativeWRT MAXB fuel r orders) (R_DerivativeWRT_release MAXB fuel r orders)).
Proof. exact c106_rational. Qed.
Print Assumptions C106_rational.
Theorem C106_compose_rational : (forall (MAXB fuel : nat) (T : Type) (o : SOps T) (d : nat) (V : Type) (ov : VOps T V) (outer : spline V) (inner : rspline T (point T d)), obeys (ComposeNumerator_R MAXB fuel outer inner) (ComposeNumerator_R_release MAXB fuel outer inner)) /\
  (forall (MAXB fuel : nat) (T : Type) (o : SOps T) (d : nat) (V : Type) (outer : spline V) (inner : rspline T (point T d)), obeys (ComposeNumeratorSensitivity_R MAXB fuel outer inner) (ComposeNumeratorSensitivity_R_release MAXB fuel outer inner)) /\
  (forall (MAXB : nat) (T : Type) (o : SOps T) (d : nat) (V : Type) (outer : spline V) (inner : rspline T (point T d)), obeys (ComposeDenominator MAXB outer inner) (ComposeDenominator_release MAXB outer inner)) /\
  (forall (MAXB fuel : nat) (T V : Type) (o : SOps T) (ov : VOps T V) (d : nat) (outer : spline V) (inner : rspline T (point T d)), obeys (Compose_PR MAXB fuel outer inner) (Compose_PR_release MAXB fuel outer inner)) /\
  (forall (MAXB fuel : nat) (T V : Type) (o : SOps T) (d : nat) (outer : spline V) (inner : rspline T (point T d)), obeys (ComposeSensitivity_PR MAXB fuel outer inner) (ComposeSensitivity_PR_release MAXB fuel outer inner)) /\
  (forall (MAXB : nat) (T V : Type) (o : SOps T) (ov : VOps T V) (d : nat) (outer : rspline T V) (inner : spline (point T d)), obeys (Compose_RP MAXB outer inner) (Compose_RP_release MAXB outer inner)) /\
  (forall (MAXB : nat) (T V : Type) (o : SOps T) (d : nat) (outer : rspline T V) (inner : spline (point T d)), obeys (ComposeSensitivity_RP MAXB outer inner) (ComposeSensitivity_RP_release MAXB outer inner)) /\
  (forall (MAXB fuel : nat) (T V : Type) (o : SOps T) (ov : VOps T V) (d : nat) (outer : rspline T V) (inner : rspline T (point T d)), obeys (Compose_RR MAXB fuel outer inner) (Compose_RR_release MAXB fuel outer inner)) /\
  (forall (MAXB fuel : nat) (T V : Type) (o : SOps T) (d : nat) (outer : rspline T V) (inner : rspline T (point T d)), obeys (ComposeSensitivity_RR MAXB fuel outer inner) (ComposeSensitivity_RR_release MAXB fuel outer inner)) /\
  (forall (MAXB fuel : nat) (T : Type) (o : SOps T) (V : Type) (ov : VOps T V) (outer : spline V) (inner : rspline T T), obeys (ComposeNumerator_R_s MAXB fuel outer inner) (ComposeNumerator_R_s_release MAXB fuel outer inner)) /\
  (forall (MAXB fuel : nat) (T : Type) (o : SOps T) (V : Type) (outer : spline V) (inner : rspline T T), obeys (ComposeNumeratorSensitivity_R_s MAXB fuel outer inner) (ComposeNumeratorSensitivity_R_s_release MAXB fuel outer inner)) /\
  (forall (MAXB : nat) (T : Type) (o : SOps T) (V : Type) (outer : spline V) (inner : rspline T T), obeys (ComposeDenominator_s MAXB outer inner) (ComposeDenominator_s_release MAXB outer inner)) /\
  (forall (MAXB fuel : nat) (T V : Type) (o : SOps T) (ov : VOps T V) (outer : spline V) (inner : rspline T T), obeys (Compose_PR_s MAXB fuel outer inner) (Compose_PR_s_release MAXB fuel outer inner)) /\
  (forall (MAXB fuel : nat) (T V : Type) (o : SOps T) (outer : spline V) (inner : rspline T T), obeys (ComposeSensitivity_PR_s MAXB fuel outer inner) (ComposeSensitivity_PR_s_release MAXB fuel outer inner)) /\
  (forall (MAXB : nat) (T V : Type) (o : SOps T) (ov : VOps T V) (outer : rspline T V) (inner : spline T), obeys (Compose_RP_s MAXB outer inner) (Compose_RP_s_release MAXB outer inner)) /\
  (forall (MAXB : nat) (T V : Type) (o : SOps T) (outer : rspline T V) (inner : spline T), obeys (ComposeSensitivity_RP_s MAXB outer inner) (ComposeSensitivity_RP_s_release MAXB outer inner)) /\
  (forall (MAXB fuel : nat) (T V : Type) (o : SOps T) (ov : VOps T V) (outer : rspline T V) (inner : rspline T T), obeys (Compose_RR_s MAXB fuel outer inner) (Compose_RR_s_release MAXB fuel outer inner)) /\
  (forall (MAXB fuel : nat) (T V : Type) (o : SOps T) (outer : rspline T V) (inner : rspline T T), obeys (ComposeSensitivity_RR_s MAXB fuel outer inner) (ComposeSensitivity_RR_s_release MAXB fuel outer inner)).
Proof. exact c106_compose_rational. Qed.
Print Assumptions C106_compose_rational.
Theorem C106_decode : (forall (sz : nat) (s : list ascii), obeys (Decode sz s) (Decode_release sz s)) /\
  (forall (dim sz : nat) (s : list ascii), obeys (Decode_points dim sz s) (Decode_points_release dim sz s)).
Proof. exact c106_decode. Qed.
Print Assumptions C106_decode.
Theorem C106_ad : (forall (S : Type) (os : ADScalar S) (n : nat) (value : S) (active_component : nat), obeys (AD_input n value active_component) (AD_input_release n value active_component)) /\
  (forall (S : Type) (os : ADScalar S) (a b : adt S), obeys (AD_add_assign a b) (AD_add_assign_release a b)) /\
  (forall (S : Type) (os : ADScalar S) (a b : adt S), obeys (AD_add a b) (AD_add_release a b)) /\
  (forall (S : Type) (os : ADScalar S) (a b : adt S), obeys (AD_sub a b) (AD_sub_release a b)) /\
  (forall (S : Type) (os : ADScalar S) (a b : adt S), obeys (AD_mul_assign a b) (AD_mul_assign_release a b)) /\
  (forall (S : Type) (os : ADScalar S) (a b : adt S), obeys (AD_mul a b) (AD_mul_release a b)) /\
  (forall (S : Type) (os : ADScalar S) (a b : adt S), obeys (AD_div_assign a b) (AD_div_assign_release a b)) /\
  (forall (S : Type) (os : ADScalar S) (a b : adt S), obeys (AD_div a b) (AD_div_release a b)) /\
  (forall (S : Type) (os : ADScalar S) (a b : adt S), obeys (AD_pow a b) (AD_pow_release a b)).
Proof. exact c106_ad. Qed.
Print Assumptions C106_ad.
(** C106: what the build without assertions does where an assertion would have failed. *)
Theorem C106_points : forall (V : Type) (deg : list nat) (pts : list V),
  deg <> [] ->
  exists s, Spline_deg_points_release deg pts = Ok s /\ degrees s = deg /\ control_points s = pts /\
    number_of_control_points s = n_coeffs deg /\ (wf s <-> length pts = n_coeffs deg).
Proof. exact c106_points. Qed.
Print Assumptions C106_points.
Theorem C106_points_short : forall (T : Type) (o : SOps T) (F : SField T) (V : Type) (ov : VOps T V) (M : VMod T V) (deg : list nat) (pts : list V) s (xs : list T),
  Spline_deg_points_release deg pts = Ok s -> length pts < n_coeffs deg ->
  Evaluate s xs = UB.
Proof. exact c106_points_short. Qed.
Print Assumptions C106_points_short.
Theorem C106_points_surplus : forall (T : Type) (o : SOps T) (F : SField T) (V : Type) (ov : VOps T V) (M : VMod T V) (deg : list nat) (pts extra : list V) s,
  Spline_deg_points deg pts = Ok s ->
  exists s', Spline_deg_points_release deg (pts ++ extra) = Ok s' /\
    forall xs : list T, length xs = length deg -> exists v, Evaluate s xs = Ok v /\ Evaluate s' xs = Ok v.
Proof. exact c106_points_surplus. Qed.
Print Assumptions C106_points_surplus.
Theorem C106_table : forall MAXB, 1 <= MAXB <= 68 ->
  (forall n i, MAXB <= n -> choose_release MAXB n i = UB) /\
  (forall (T : Type) (o : SOps T) (F : SField T) p (x : T), MAXB <= p -> BernsteinEvaluate_release MAXB p x = UB) /\
  (forall (T : Type) (o : SOps T) (F : SField T) p (x : T) k, k <= p -> MAXB <= p - k \/ MAXB <= k -> BernsteinEvaluateDerivative_release MAXB p x k = UB) /\
  (forall (T : Type) (o : SOps T) (F : SField T) (V : Type) (ov : VOps T V) (s : spline V) (xs : list T), length xs = length (degrees s) ->
     Exists (fun p => MAXB <= p) (degrees s) -> BasisFunctions_release MAXB s xs = UB /\ ForwardEvaluate_release MAXB s xs = UB).
Proof. exact c106_table. Qed.
Print Assumptions C106_table.
Theorem C106_decode_cut : forall sz s, Decode_release sz s = Decode sz (firstn (4 * (length s / 4)) s).
Proof. exact c106_decode_cut. Qed.
Print Assumptions C106_decode_cut.
Theorem C106_ad_longer : forall (S : Type) (os : ADScalar S) (a b : adt S),
  length (ad_d a) <= length (ad_d b) ->
  let b' := mkADT (ad_v b) (firstn (length (ad_d a)) (ad_d b)) in
  AD_add_release a b = AD_add a b' /\ AD_sub_release a b = AD_sub a b' /\ AD_mul_release a b = AD_mul a b' /\ AD_div_release a b = AD_div a b'.
Proof. exact c106_ad_longer. Qed.
Print Assumptions C106_ad_longer.
Theorem C106_ad_shorter : forall a b : adt R,
  length (ad_d b) < length (ad_d a) ->
  AD_add_release a b = UB /\ AD_sub_release a b = UB /\ AD_mul_release a b = UB /\ (ad_v b <> 0%R -> AD_div_release a b = UB).
Proof. exact c106_ad_shorter. Qed.
Print Assumptions C106_ad_shorter.
Theorem C106_ad_input : forall (S : Type) (os : ADScalar S) n (x : S) k, n <= k -> AD_input_release n x k = UB.
Proof. exact c106_ad_input. Qed.
Print Assumptions C106_ad_input.
Theorem C106_rational_parts : forall (T : Type) (o : SOps T) (V : Type) (ov : VOps T V) (u : spline V) (w : spline T),
  exists r, R_mk_release u w = Ok r /\ weighted_spline r = u /\ weight_function r = w /\
    forall xs p q v, Evaluate u xs = Ok p -> Evaluate w xs = Ok q -> vdiv p q = Ok v -> R_Evaluate r xs = Ok v.
Proof. exact c106_rational_parts. Qed.
Print Assumptions C106_rational_parts.
(** Both builds agree on a call without a failing assertion; four calls with one. *)
Example C106_case :
  (choose 5 4 2 = Ok 6%N /\ choose_release 5 4 2 = Ok 6%N) /\
  (choose 5 7 2 = AssertFail /\ choose_release 5 7 2 = UB) /\
  (let l := ["Q"; "U"; "J"; "D"; "R"]%char in Decode 1 l = AssertFail /\ Decode_release 1 l = Ok [[65]; [66]; [67]]%N) /\
  (AD_add (mkADT 1%R [1%R]) (mkADT 2%R [3%R; 4%R]) = AssertFail /\ AD_add_release (mkADT 1%R [1%R]) (mkADT 2%R [3%R; 4%R]) = Ok (mkADT (1 + 2)%R [(1 + 3)%R])) /\
  (Spline_deg_points [1] [0%R; 2%R; 5%R] = AssertFail /\
   exists s v, Spline_deg_points_release [1] [0%R; 2%R; 5%R] = Ok s /\ Evaluate s [(1 / 2)%R] = Ok v /\ v = 1%R) /\
  (Spline_deg_points [1] [3%R] = AssertFail /\ exists s, Spline_deg_points_release [1] [3%R] = Ok s /\ Evaluate s [(1 / 2)%R] = UB).
Proof.
  split; [split; vm_compute; reflexivity|]. split; [split; vm_compute; reflexivity|]. split; [split; vm_compute; reflexivity|].
  split; [split; reflexivity|]. split; (split; [reflexivity|]).
  - eexists; eexists. split; [reflexivity|]. split; [reflexivity|]. cbn. lra.
  - eexists. split; reflexivity.
Qed.
