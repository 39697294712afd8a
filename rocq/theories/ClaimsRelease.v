(** A build without assertions. *)
From Coq Require Import Arith Lia List ZArith NArith Bool Ascii String Reals.
From Verif Require Import Prelude Scalar Spec SpecSpline ModelBasis ModelPoint ModelSpline ModelRational ModelScalar ModelBase64 ModelAD ModelRelease SpecRelease
  ProofIndex ProofBasis ProofEval ProofRelease ProofRelease2 ClaimsA.
Import ListNotations.
Local Open Scope nat_scope.
Local Notation length := List.length.

Lemma c106_bernstein :
  (forall MAXB n i : nat, obeys (choose MAXB n i) (choose_release MAXB n i)) /\
  (forall (MAXB : nat) (T : Type) (o : SOps T) (degree : nat) (value : T), obeys (BernsteinEvaluate MAXB degree value) (BernsteinEvaluate_release MAXB degree value)) /\
  (forall (MAXB : nat) (T : Type) (o : SOps T) (degree : nat) (value : T) (deriv : nat), obeys (BernsteinEvaluateDerivative MAXB degree value deriv) (BernsteinEvaluateDerivative_release MAXB degree value deriv)).
Proof. exact (conj sim_choose (conj sim_BernsteinEvaluate sim_BernsteinEvaluateDerivative)). Qed.

Lemma c106_spline :
  (forall (V : Type) (deg : list nat) (points : list V), obeys (Spline_deg_points deg points) (Spline_deg_points_release deg points)) /\
  (forall (T V : Type) (o : SOps T) (ov : VOps T V) (MAXB : nat) (s : spline V) (orders : list nat), obeys (DerivativeWRT MAXB s orders) (DerivativeWRT_release MAXB s orders)) /\
  (forall (T V : Type) (o : SOps T) (MAXB : nat) (s : spline V) (par_coords : list T), obeys (BasisFunctionContributions MAXB s par_coords) (BasisFunctionContributions_release MAXB s par_coords)) /\
  (forall (T V : Type) (o : SOps T) (MAXB : nat) (s : spline V) (par_coords : list T), obeys (BasisFunctions MAXB s par_coords) (BasisFunctions_release MAXB s par_coords)) /\
  (forall (T V : Type) (o : SOps T) (ov : VOps T V) (MAXB : nat) (s : spline V) (par_coords : list T), obeys (ForwardEvaluate MAXB s par_coords) (ForwardEvaluate_release MAXB s par_coords)) /\
  (forall (T V : Type) (o : SOps T) (MAXB : nat) (s : spline V) (par_coords : list T) (nth_derivs : list nat), obeys (BasisFunctionsDerivativeContributions MAXB s par_coords nth_derivs) (BasisFunctionsDerivativeContributions_release MAXB s par_coords nth_derivs)) /\
  (forall (T V : Type) (o : SOps T) (MAXB : nat) (s : spline V) (par_coords : list T) (nth_derivs : list nat), obeys (BasisFunctionsDerivatives MAXB s par_coords nth_derivs) (BasisFunctionsDerivatives_release MAXB s par_coords nth_derivs)) /\
  (forall (T V : Type) (o : SOps T) (ov : VOps T V) (MAXB : nat) (s : spline V) (par_coords : list T) (nth_derivs : list nat), obeys (EvaluateDerivative MAXB s par_coords nth_derivs) (EvaluateDerivative_release MAXB s par_coords nth_derivs)) /\
  (forall (T V : Type) (o : SOps T) (ov : VOps T V) (depth fuel : nat) (s rhs : spline V), obeys (spline_add_rec depth fuel s rhs) (spline_add_rec_release depth fuel s rhs)) /\
  (forall (T V : Type) (o : SOps T) (ov : VOps T V) (fuel : nat) (s rhs : spline V), obeys (spline_add fuel s rhs) (spline_add_release fuel s rhs)) /\
  (forall (T V : Type) (o : SOps T) (ov : VOps T V) (fuel : nat) (s rhs : spline V), obeys (spline_sub fuel s rhs) (spline_sub_release fuel s rhs)) /\
  (forall (MAXB : nat) (T : Type) (o : SOps T) (s rhs : spline T), obeys (spline_mul_ss MAXB s rhs) (spline_mul_ss_release MAXB s rhs)) /\
  (forall (T V : Type) (o : SOps T) (ov : VOps T V) (MAXB : nat) (s : spline V) (rhs : spline T), obeys (spline_mul_vs MAXB s rhs) (spline_mul_vs_release MAXB s rhs)) /\
  (forall (T V : Type) (o : SOps T) (ov : VOps T V) (MAXB : nat) (s : spline T) (rhs : spline V), obeys (spline_mul_sv MAXB s rhs) (spline_mul_sv_release MAXB s rhs)) /\
  (forall (MAXB : nat) (T : Type) (o : SOps T) (s : spline T) (power : nat), obeys (RaisePower MAXB s power) (RaisePower_release MAXB s power)).
Proof. exact (conj sim_Spline_deg_points (conj sim_DerivativeWRT (conj sim_BasisFunctionContributions (conj sim_BasisFunctions (conj sim_ForwardEvaluate (conj sim_BasisFunctionsDerivativeContributions (conj sim_BasisFunctionsDerivatives (conj sim_EvaluateDerivative (conj sim_spline_add_rec (conj sim_spline_add (conj sim_spline_sub (conj sim_spline_mul_ss (conj sim_spline_mul_vs (conj sim_spline_mul_sv sim_RaisePower)))))))))))))). Qed.

Lemma c106_compose :
  (forall (MAXB : nat) (T V : Type) (o : SOps T) (ov : VOps T V) (d : nat) (outer : spline V) (inner : spline (point T d)), obeys (Compose MAXB outer inner) (Compose_release MAXB outer inner)) /\
  (forall (MAXB : nat) (T V : Type) (o : SOps T) (d : nat) (outer : spline V) (inner : spline (point T d)), obeys (ComposeSensitivity MAXB outer inner) (ComposeSensitivity_release MAXB outer inner)) /\
  (forall (MAXB : nat) (T : Type) (o : SOps T) (V : Type) (ov : VOps T V) (outer : spline V) (inner : spline T), obeys (Compose_s MAXB outer inner) (Compose_s_release MAXB outer inner)) /\
  (forall (MAXB : nat) (T V : Type) (o : SOps T) (outer : spline V) (inner : spline T), obeys (ComposeSensitivity_s MAXB outer inner) (ComposeSensitivity_s_release MAXB outer inner)).
Proof. exact (conj sim_Compose (conj sim_ComposeSensitivity (conj sim_Compose_s sim_ComposeSensitivity_s))). Qed.

Lemma c106_rational :
  (forall (T V : Type) (u : spline V) (w : spline T), obeys (R_mk u w) (R_mk_release u w)) /\
  (forall (T V : Type) (o : SOps T) (s : spline V), obeys (R_of_spline s) (R_of_spline_release s)) /\
  (forall (T V : Type) (ov : VOps T V) (deg : list nat) (pts : list V) (ws : list T), obeys (R_deg_points deg pts ws) (R_deg_points_release deg pts ws)) /\
  (forall (T V : Type) (o : SOps T) (ov : VOps T V) (r : rspline T V) (deg : list nat), obeys (R_UpdateDegrees r deg) (R_UpdateDegrees_release r deg)) /\
  (forall (T V : Type) (o : SOps T) (MAXB : nat) (r : rspline T V) (xs : list T), obeys (R_UnweightedBasisFunctions MAXB r xs) (R_UnweightedBasisFunctions_release MAXB r xs)) /\
  (forall (T V : Type) (o : SOps T) (MAXB : nat) (r : rspline T V) (xs : list T), obeys (R_BasisFunctions MAXB r xs) (R_BasisFunctions_release MAXB r xs)) /\
  (forall (T V : Type) (o : SOps T) (ov : VOps T V) (MAXB : nat) (r : rspline T V) (xs : list T), obeys (R_ForwardEvaluate MAXB r xs) (R_ForwardEvaluate_release MAXB r xs)) /\
  (forall (T V : Type) (o : SOps T) (ov : VOps T V) (MAXB : nat) (r : rspline T V) (xs : list T) (nth_derivs : list nat), obeys (R_EvaluateDerivative MAXB r xs nth_derivs) (R_EvaluateDerivative_release MAXB r xs nth_derivs)) /\
  (forall (T V : Type) (o : SOps T) (MAXB : nat) (r : rspline T V) (xs : list T) (nth_derivs : list nat), obeys (R_BasisFunctionsDerivatives MAXB r xs nth_derivs) (R_BasisFunctionsDerivatives_release MAXB r xs nth_derivs)) /\
  (forall (T V : Type) (o : SOps T) (ov : VOps T V) (r : rspline T V) (par_dim : nat), obeys (R_OrderElevate r par_dim) (R_OrderElevate_release r par_dim)) /\
  (forall (T V : Type) (o : SOps T) (ov : VOps T V) (r : rspline T V) (plane : T) (dim : nat), obeys (R_SplitAtPosition r plane dim) (R_SplitAtPosition_release r plane dim)) /\
  (forall (T V : Type) (o : SOps T) (ov : VOps T V) (r : rspline T V) (planes : list T) (dim : nat), obeys (R_SplitAtPositions r planes dim) (R_SplitAtPositions_release r planes dim)) /\
  (forall (T V : Type) (ov : VOps T V) (r : rspline T V) (c : T), obeys (R_scale_assign r c) (R_scale_assign_release r c)) /\
  (forall (T V : Type) (ov : VOps T V) (r : rspline T V) (c : T), obeys (R_scale r c) (R_scale_release r c)) /\
  (forall (T V : Type) (ov : VOps T V) (r : rspline T V) (p : V), obeys (R_shift_assign r p) (R_shift_assign_release r p)) /\
  (forall (T V : Type) (ov : VOps T V) (r : rspline T V) (p : V), obeys (R_shift r p) (R_shift_release r p)) /\
  (forall (T V : Type) (ov : VOps T V) (r : rspline T V) (p : V), obeys (R_unshift r p) (R_unshift_release r p)) /\
  (forall (T V : Type) (ov : VOps T V) (r : rspline T V), obeys (R_neg r) (R_neg_release r)) /\
  (forall (T V : Type) (o : SOps T) (ov : VOps T V) (MAXB fuel : nat) (r rhs : rspline T V), obeys (R_add MAXB fuel r rhs) (R_add_release MAXB fuel r rhs)) /\
  (forall (T V : Type) (o : SOps T) (ov : VOps T V) (MAXB fuel : nat) (r rhs : rspline T V), obeys (R_add_assign MAXB fuel r rhs) (R_add_assign_release MAXB fuel r rhs)) /\
  (forall (T V : Type) (o : SOps T) (ov : VOps T V) (MAXB fuel : nat) (r rhs : rspline T V), obeys (R_sub MAXB fuel r rhs) (R_sub_release MAXB fuel r rhs)) /\
  (forall (T V : Type) (o : SOps T) (ov : VOps T V) (MAXB fuel : nat) (r rhs : rspline T V), obeys (R_sub_assign MAXB fuel r rhs) (R_sub_assign_release MAXB fuel r rhs)) /\
  (forall (T V : Type) (o : SOps T) (ov : VOps T V) (MAXB fuel i_para_dim : nat) (r : rspline T V), obeys (R_derivative_step MAXB fuel i_para_dim r) (R_derivative_step_release MAXB fuel i_para_dim r)) /\
  (forall (T V : Type) (o : SOps T) (ov : VOps T V) (MAXB fuel : nat) (r : rspline T V) (orders : list nat), obeys (R_DerivativeWRT MAXB fuel r orders) (R_DerivativeWRT_release MAXB fuel r orders)).
Proof. exact (conj sim_R_mk (conj sim_R_of_spline (conj sim_R_deg_points (conj sim_R_UpdateDegrees (conj sim_R_UnweightedBasisFunctions (conj sim_R_BasisFunctions (conj sim_R_ForwardEvaluate (conj sim_R_EvaluateDerivative (conj sim_R_BasisFunctionsDerivatives (conj sim_R_OrderElevate (conj sim_R_SplitAtPosition (conj sim_R_SplitAtPositions (conj sim_R_scale_assign (conj sim_R_scale (conj sim_R_shift_assign (conj sim_R_shift (conj sim_R_unshift (conj sim_R_neg (conj sim_R_add (conj sim_R_add_assign (conj sim_R_sub (conj sim_R_sub_assign (conj sim_R_derivative_step sim_R_DerivativeWRT))))))))))))))))))))))). Qed.

Lemma c106_compose_rational :
  (forall (MAXB fuel : nat) (T : Type) (o : SOps T) (d : nat) (V : Type) (ov : VOps T V) (outer : spline V) (inner : rspline T (point T d)), obeys (ComposeNumerator_R MAXB fuel outer inner) (ComposeNumerator_R_release MAXB fuel outer inner)) /\
  (forall (MAXB fuel : nat) (T : Type) (o : SOps T) (d : nat) (V : Type) (outer : spline V) (inner : rspline T (point T d)), obeys (ComposeNumeratorSensitivity_R MAXB fuel outer inner) (ComposeNumeratorSensitivity_R_release MAXB fuel outer inner)) /\
  (forall (MAXB : nat) (T : Type) (o : SOps T) (d : nat) (V : Type) (outer : spline V) (inner : rspline T (point T d)), obeys (ComposeDenominator MAXB outer inner) (ComposeDenominator_release MAXB outer inner)) /\
  (forall (MAXB fuel : nat) (T V : Type) (o : SOps T) (ov : VOps T V) (d : nat) (outer : spline V) (inner : rspline T (point T d)), obeys (Compose_PR MAXB fuel outer inner) (Compose_PR_release MAXB fuel outer inner)) /\
  (forall (MAXB fuel : nat) (T V : Type) (o : SOps T) (d : nat) (outer : spline V) (inner : rspline T (point T d)), obeys (ComposeSensitivity_PR MAXB fuel outer inner) (ComposeSensitivity_PR_release MAXB fuel outer inner)) /\
  (forall (MAXB : nat) (T V : Type) (o : SOps T) (ov : VOps T V) (d : nat) (outer : rspline T V) (inner : spline (point T d)), obeys (Compose_RP MAXB outer inner) (Compose_RP_release MAXB outer inner)) /\
  (forall (MAXB : nat) (T V : Type) (o : SOps T) (d : nat) (outer : rspline T V) (inner : spline (point T d)), obeys (ComposeSensitivity_RP MAXB outer inner) (ComposeSensitivity_RP_release MAXB outer inner)) /\
  (forall (MAXB fuel : nat) (T V : Type) (o : SOps T) (ov : VOps T V) (d : nat) (outer : rspline T V) (inner : rspline T (point T d)), obeys (Compose_RR MAXB fuel outer inner) (Compose_RR_release MAXB fuel outer inner)) /\
  (forall (MAXB fuel : nat) (T V : Type) (o : SOps T) (d : nat) (outer : rspline T V) (inner : rspline T (point T d)), obeys (ComposeSensitivity_RR MAXB fuel outer inner) (ComposeSensitivity_RR_release MAXB fuel outer inner)) /\
  (forall (MAXB fuel : nat) (T : Type) (o : SOps T) (V : Type) (ov : VOps T V) (outer : spline V) (inner : rspline T T), obeys (ComposeNumerator_R_s MAXB fuel outer inner) (ComposeNumerator_R_s_release MAXB fuel outer inner)) /\
  (forall (MAXB fuel : nat) (T : Type) (o : SOps T) (V : Type) (outer : spline V) (inner : rspline T T), obeys (ComposeNumeratorSensitivity_R_s MAXB fuel outer inner) (ComposeNumeratorSensitivity_R_s_release MAXB fuel outer inner)) /\
  (forall (MAXB : nat) (T : Type) (o : SOps T) (V : Type) (outer : spline V) (inner : rspline T T), obeys (ComposeDenominator_s MAXB outer inner) (ComposeDenominator_s_release MAXB outer inner)) /\
  (forall (MAXB fuel : nat) (T V : Type) (o : SOps T) (ov : VOps T V) (outer : spline V) (inner : rspline T T), obeys (Compose_PR_s MAXB fuel outer inner) (Compose_PR_s_release MAXB fuel outer inner)) /\
  (forall (MAXB fuel : nat) (T V : Type) (o : SOps T) (outer : spline V) (inner : rspline T T), obeys (ComposeSensitivity_PR_s MAXB fuel outer inner) (ComposeSensitivity_PR_s_release MAXB fuel outer inner)) /\
  (forall (MAXB : nat) (T V : Type) (o : SOps T) (ov : VOps T V) (outer : rspline T V) (inner : spline T), obeys (Compose_RP_s MAXB outer inner) (Compose_RP_s_release MAXB outer inner)) /\
  (forall (MAXB : nat) (T V : Type) (o : SOps T) (outer : rspline T V) (inner : spline T), obeys (ComposeSensitivity_RP_s MAXB outer inner) (ComposeSensitivity_RP_s_release MAXB outer inner)) /\
  (forall (MAXB fuel : nat) (T V : Type) (o : SOps T) (ov : VOps T V) (outer : rspline T V) (inner : rspline T T), obeys (Compose_RR_s MAXB fuel outer inner) (Compose_RR_s_release MAXB fuel outer inner)) /\
  (forall (MAXB fuel : nat) (T V : Type) (o : SOps T) (outer : rspline T V) (inner : rspline T T), obeys (ComposeSensitivity_RR_s MAXB fuel outer inner) (ComposeSensitivity_RR_s_release MAXB fuel outer inner)).
Proof. exact (conj sim_ComposeNumerator_R (conj sim_ComposeNumeratorSensitivity_R (conj sim_ComposeDenominator (conj sim_Compose_PR (conj sim_ComposeSensitivity_PR (conj sim_Compose_RP (conj sim_ComposeSensitivity_RP (conj sim_Compose_RR (conj sim_ComposeSensitivity_RR (conj sim_ComposeNumerator_R_s (conj sim_ComposeNumeratorSensitivity_R_s (conj sim_ComposeDenominator_s (conj sim_Compose_PR_s (conj sim_ComposeSensitivity_PR_s (conj sim_Compose_RP_s (conj sim_ComposeSensitivity_RP_s (conj sim_Compose_RR_s sim_ComposeSensitivity_RR_s))))))))))))))))). Qed.

Lemma c106_decode :
  (forall (sz : nat) (s : list ascii), obeys (Decode sz s) (Decode_release sz s)) /\
  (forall (dim sz : nat) (s : list ascii), obeys (Decode_points dim sz s) (Decode_points_release dim sz s)).
Proof. exact (conj sim_Decode sim_Decode_points). Qed.

Lemma c106_ad :
  (forall (S : Type) (os : ADScalar S) (n : nat) (value : S) (active_component : nat), obeys (AD_input n value active_component) (AD_input_release n value active_component)) /\
  (forall (S : Type) (os : ADScalar S) (a b : adt S), obeys (AD_add_assign a b) (AD_add_assign_release a b)) /\
  (forall (S : Type) (os : ADScalar S) (a b : adt S), obeys (AD_add a b) (AD_add_release a b)) /\
  (forall (S : Type) (os : ADScalar S) (a b : adt S), obeys (AD_sub a b) (AD_sub_release a b)) /\
  (forall (S : Type) (os : ADScalar S) (a b : adt S), obeys (AD_mul_assign a b) (AD_mul_assign_release a b)) /\
  (forall (S : Type) (os : ADScalar S) (a b : adt S), obeys (AD_mul a b) (AD_mul_release a b)) /\
  (forall (S : Type) (os : ADScalar S) (a b : adt S), obeys (AD_div_assign a b) (AD_div_assign_release a b)) /\
  (forall (S : Type) (os : ADScalar S) (a b : adt S), obeys (AD_div a b) (AD_div_release a b)) /\
  (forall (S : Type) (os : ADScalar S) (a b : adt S), obeys (AD_pow a b) (AD_pow_release a b)).
Proof. exact (conj sim_AD_input (conj sim_AD_add_assign (conj sim_AD_add (conj sim_AD_sub (conj sim_AD_mul_assign (conj sim_AD_mul (conj sim_AD_div_assign (conj sim_AD_div sim_AD_pow)))))))). Qed.

Lemma c106_points : forall (V : Type) (deg : list nat) (pts : list V),
  deg <> [] ->
  exists s, Spline_deg_points_release deg pts = Ok s /\ degrees s = deg /\ control_points s = pts /\
    number_of_control_points s = n_coeffs deg /\ (wf s <-> length pts = n_coeffs deg).
Proof.
  intros V deg pts H. unfold Spline_deg_points_release. rewrite count_points_ok, UpdateIndexOffsets_ok by auto. cbn [bind].
  eexists. split; [reflexivity|]. cbn. repeat split; auto; intros K; [exact (proj2 (proj2 (proj2 K)))].
Qed.

Lemma c106_points_short : forall (T : Type) (o : SOps T) (F : SField T) (V : Type) (ov : VOps T V) (M : VMod T V) (deg : list nat) (pts : list V) s (xs : list T),
  Spline_deg_points_release deg pts = Ok s -> length pts < n_coeffs deg ->
  Evaluate s xs = UB.
Proof.
  intros T o F V ov M deg pts s xs E HL. unfold Spline_deg_points_release in E. rewrite count_points_ok in E. cbn [bind] in E.
  destruct deg as [|p deg]; [rewrite UpdateIndexOffsets_nil in E; discriminate|].
  rewrite UpdateIndexOffsets_ok in E by discriminate. cbn [bind] in E. injection E as <-. apply Evaluate_short; auto.
Qed.

Lemma c106_points_surplus : forall (T : Type) (o : SOps T) (F : SField T) (V : Type) (ov : VOps T V) (M : VMod T V) (deg : list nat) (pts extra : list V) s,
  Spline_deg_points deg pts = Ok s ->
  exists s', Spline_deg_points_release deg (pts ++ extra) = Ok s' /\
    forall xs : list T, length xs = length deg -> exists v, Evaluate s xs = Ok v /\ Evaluate s' xs = Ok v.
Proof.
  intros T o F V ov M deg pts extra s E. pose proof (Spline_deg_points_inv _ _ _ E) as (HD & HL & ->).
  unfold Spline_deg_points_release. rewrite count_points_ok, UpdateIndexOffsets_ok by auto. cbn [bind].
  eexists. split; [reflexivity|]. intros xs HX.
  assert (Hw : wf (mk deg pts)) by (repeat split; auto).
  pose proof (c09_evaluate T V _ _ _ _ (mk deg pts) xs Hw HX) as Ev. eexists. split; [exact Ev|].
  exact (Evaluate_more (mk deg pts) extra xs _ Ev).
Qed.

Lemma c106_table : forall MAXB, 1 <= MAXB <= 68 ->
  (forall n i, MAXB <= n -> choose_release MAXB n i = UB) /\
  (forall (T : Type) (o : SOps T) (F : SField T) p (x : T), MAXB <= p -> BernsteinEvaluate_release MAXB p x = UB) /\
  (forall (T : Type) (o : SOps T) (F : SField T) p (x : T) k, k <= p -> MAXB <= p - k \/ MAXB <= k -> BernsteinEvaluateDerivative_release MAXB p x k = UB) /\
  (forall (T : Type) (o : SOps T) (F : SField T) (V : Type) (ov : VOps T V) (s : spline V) (xs : list T), length xs = length (degrees s) ->
     Exists (fun p => MAXB <= p) (degrees s) -> BasisFunctions_release MAXB s xs = UB /\ ForwardEvaluate_release MAXB s xs = UB).
Proof.
  intros MAXB HM. split; [|split; [|split]].
  - intros. apply choose_release_ub; auto.
  - intros. apply Bernstein_release_ub; auto.
  - intros. apply BernsteinDerivative_release_ub; auto.
  - intros. split; [apply BasisFunctions_release_ub; auto|apply ForwardEvaluate_release_ub; auto].
Qed.

Lemma c106_decode_cut : forall sz s, Decode_release sz s = Decode sz (firstn (4 * (length s / 4)) s).
Proof. exact Decode_release_cut. Qed.

Lemma c106_ad_longer : forall (S : Type) (os : ADScalar S) (a b : adt S),
  length (ad_d a) <= length (ad_d b) ->
  let b' := mkADT (ad_v b) (firstn (length (ad_d a)) (ad_d b)) in
  AD_add_release a b = AD_add a b' /\ AD_sub_release a b = AD_sub a b' /\ AD_mul_release a b = AD_mul a b' /\ AD_div_release a b = AD_div a b'.
Proof. intros S os a b H. exact (AD_cut a b H). Qed.

Lemma c106_ad_shorter : forall a b : adt R,
  length (ad_d b) < length (ad_d a) ->
  AD_add_release a b = UB /\ AD_sub_release a b = UB /\ AD_mul_release a b = UB /\ (ad_v b <> 0%R -> AD_div_release a b = UB).
Proof. exact AD_short. Qed.

Lemma c106_ad_input : forall (S : Type) (os : ADScalar S) n (x : S) k, n <= k -> AD_input_release n x k = UB.
Proof. intros. apply AD_input_release_ub. auto. Qed.

Lemma c106_rational_parts : forall (T : Type) (o : SOps T) (V : Type) (ov : VOps T V) (u : spline V) (w : spline T),
  exists r, R_mk_release u w = Ok r /\ weighted_spline r = u /\ weight_function r = w /\
    forall xs p q v, Evaluate u xs = Ok p -> Evaluate w xs = Ok q -> vdiv p q = Ok v -> R_Evaluate r xs = Ok v.
Proof.
  intros T o V ov u w. eexists. split; [reflexivity|]. split; [reflexivity|]. split; [reflexivity|].
  intros xs p q v Hp Hq Hv. unfold R_Evaluate. cbn [weighted_spline weight_function]. rewrite Hp. cbn [bind]. rewrite Hq. exact Hv.
Qed.
