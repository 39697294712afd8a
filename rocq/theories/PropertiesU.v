(** Properties C71-C73: rounding errors of the evaluation functions. *)
From Coq Require Import Arith Lia List Bool ZArith Reals Lra.
From Verif Require Import Prelude Scalar Spec SpecSpline Coord ModelBasis ModelSpline ModelRational SpecRational
  ModelRound SpecRound ProofRound ClaimsU.
Import ListNotations.
Local Open Scope R_scope.

(** C71: de Casteljau in rounded arithmetic. *)
Theorem C71_evaluate : forall p rnd d (s : spline (point R d)) xs, (0 < p)%nat -> nearest p rnd ->
  wf s -> length xs = length (degrees s) -> in_unit_box xs ->
  exists e, Evaluate_rnd rnd s xs = Ok e /\ forall k, (k < d)%nat ->
    Rabs (coord d e k - coord d (value_at s xs) k) <= gamma p (casteljau_roundings (degrees s)) * magnitude s xs k.
Proof. exact c71_evaluate. Qed.
Print Assumptions C71_evaluate.
Theorem C71_evaluate_scalar : forall p rnd (s : spline R) xs, (0 < p)%nat -> nearest p rnd ->
  wf s -> length xs = length (degrees s) -> in_unit_box xs ->
  exists e, Evaluate_rnd_s rnd s xs = Ok e /\
    Rabs (e - value_at s xs) <= gamma p (casteljau_roundings (degrees s)) * magnitude_s s xs.
Proof. exact c71_evaluate_scalar. Qed.
Print Assumptions C71_evaluate_scalar.
Theorem C71_magnitude : forall d (s : spline (point R d)) xs k M, wf s -> length xs = length (degrees s) -> in_unit_box xs ->
  (forall i, (i < n_coeffs (degrees s))%nat -> Rabs (coord d (nth i (control_points s) v0) k) <= M) -> magnitude s xs k <= M.
Proof. exact c71_magnitude. Qed.
Print Assumptions C71_magnitude.
Theorem C71_gamma : forall p k, INR k * / 2 ^ p <= 1 / 2 -> 0 <= gamma p k <= 2 * INR k * / 2 ^ p.
Proof. exact c71_gamma. Qed.
Print Assumptions C71_gamma.
Theorem C71_corners : forall p rnd d (s : spline (point R d)) xs, (0 < p)%nat -> nearest p rnd ->
  wf s -> length xs = length (degrees s) -> Forall (fun x => x = 0 \/ x = 1) xs ->
  Forall (fun c => forall k, (k < d)%nat -> representable p (coord d c k)) (control_points s) ->
  Evaluate_rnd rnd s xs = Ok (value_at s xs).
Proof. exact c71_corners. Qed.
Print Assumptions C71_corners.
Theorem C71_rounding_exists : forall p, (0 < p)%nat -> exists rnd, nearest p rnd.
Proof. exact c71_rounding_exists. Qed.
Print Assumptions C71_rounding_exists.
Theorem C71_constant_inexact : exists (s : spline R) x, wf s /\ in_unit_box [x] /\ representable 53 x /\
  control_points s = [5; 5] /\ forall rnd, nearest 53 rnd -> Evaluate_rnd_s rnd s [x] = Ok (5 - / 2 ^ 50).
Proof. exact c71_constant_inexact. Qed.
Print Assumptions C71_constant_inexact.
(** A parabola in double precision at 1/4: at most six roundings per coefficient. *)
Example C71_case :
  let s : spline (point R 2) := mkSpline [2%nat] 3 [1%nat] [(1, (0, tt)); (3, (4, tt)); (-5, (0, tt))] in
  wf s /\ in_unit_box [1 / 4] /\ nearest 53 (round_to 53) /\ value_at s [1 / 4] = (11 / 8, (3 / 2, tt)) /\
  magnitude s [1 / 4] 0 = 2 /\ 0 <= gamma 53 (casteljau_roundings (degrees s)) <= 12 / 2 ^ 53 /\
  exists e, Evaluate_rnd (round_to 53) s [1 / 4] = Ok e /\ Rabs (coord 2 e 0 - 11 / 8) <= 24 / 2 ^ 53.
Proof.
  intros s.
  assert (Hw : wf s) by (repeat split; discriminate).
  assert (HX : in_unit_box [1 / 4]) by (constructor; [lra|constructor]).
  assert (HR : nearest 53 (round_to 53)) by (apply nearest_round_to; lia).
  assert (HV : value_at s [1 / 4] = (11 / 8, (3 / 2, tt))).
  { cbn. f_equal; [lra|]. f_equal. lra. }
  assert (HM : magnitude s [1 / 4] 0 = 2).
  { cbn. rewrite (Rabs_right 1), (Rabs_right 3), (Rabs_left (-5)) by lra. lra. }
  assert (Hg : 0 <= gamma 53 (casteljau_roundings (degrees s)) <= 12 / 2 ^ 53).
  { unfold s. cbn [degrees casteljau_roundings]. replace (12 / 2 ^ 53) with (2 * INR (3 * list_sum [2%nat]) * / 2 ^ 53) by (simpl; lra).
    apply C71_gamma. simpl. lra. }
  repeat (split; [assumption|]).
  destruct (C71_evaluate 53 (round_to 53) 2 s [1 / 4]) as (e & E & H); auto; [lia|].
  exists e. split; auto. specialize (H 0%nat ltac:(lia)). rewrite HV, HM in H. cbn [coord plist fst nth] in H.
  unfold coord in *. cbn [plist fst nth] in *. lra.
Qed.

(** C72: the basis-function form in rounded arithmetic. *)
Theorem C72_basis : forall p rnd V MAXB (s : spline V) xs, (0 < p)%nat -> nearest p rnd -> (MAXB <= 68)%nat ->
  wf s -> length xs = length (degrees s) -> Forall (fun q => (q < MAXB)%nat) (degrees s) -> in_unit_box xs ->
  exists l l', BasisFunctions MAXB s xs = Ok l /\ BasisFunctions_rnd rnd MAXB s xs = Ok l' /\
    Forall2 (fun y x => 0 <= x /\ (1 - / 2 ^ p) ^ basis_roundings (degrees s) * x <= y <=
                        (1 + / 2 ^ p) ^ basis_roundings (degrees s) * x) l' l.
Proof. exact c72_basis. Qed.
Print Assumptions C72_basis.
Theorem C72_forward : forall p rnd MAXB d (s : spline (point R d)) xs, (0 < p)%nat -> nearest p rnd -> (MAXB <= 68)%nat ->
  wf s -> length xs = length (degrees s) -> Forall (fun q => (q < MAXB)%nat) (degrees s) -> in_unit_box xs ->
  exists e, ForwardEvaluate_rnd rnd MAXB s xs = Ok e /\ forall k, (k < d)%nat ->
    Rabs (coord d e k - coord d (value_at s xs) k) <= gamma p (forward_roundings (degrees s)) * magnitude s xs k.
Proof. exact c72_forward. Qed.
Print Assumptions C72_forward.
Theorem C72_forward_scalar : forall p rnd MAXB (s : spline R) xs, (0 < p)%nat -> nearest p rnd -> (MAXB <= 68)%nat ->
  wf s -> length xs = length (degrees s) -> Forall (fun q => (q < MAXB)%nat) (degrees s) -> in_unit_box xs ->
  exists e, ForwardEvaluate_rnd_s rnd MAXB s xs = Ok e /\
    Rabs (e - value_at s xs) <= gamma p (forward_roundings (degrees s)) * magnitude_s s xs.
Proof. exact c72_forward_scalar. Qed.
Print Assumptions C72_forward_scalar.
Theorem C72_agreement : forall p rnd MAXB d (s : spline (point R d)) xs, (0 < p)%nat -> nearest p rnd -> (MAXB <= 68)%nat ->
  wf s -> length xs = length (degrees s) -> Forall (fun q => (q < MAXB)%nat) (degrees s) -> in_unit_box xs ->
  exists a b, Evaluate_rnd rnd s xs = Ok a /\ ForwardEvaluate_rnd rnd MAXB s xs = Ok b /\ forall k, (k < d)%nat ->
    Rabs (coord d a k - coord d b k) <=
      (gamma p (casteljau_roundings (degrees s)) + gamma p (forward_roundings (degrees s))) * magnitude s xs k.
Proof. exact c72_agreement. Qed.
Print Assumptions C72_agreement.
(** A bilinear patch: 12 roundings per basis function, 16 for the sum. *)
Example C72_case :
  let s : spline R := mkSpline [1%nat; 1%nat] 4 [1%nat; 2%nat] [1; 2; 3; -4] in
  wf s /\ in_unit_box [1 / 2; 1 / 4] /\ Forall (fun q => (q < 30)%nat) (degrees s) /\
  basis_roundings (degrees s) = 12%nat /\ forward_roundings (degrees s) = 16%nat /\
  value_at s [1 / 2; 1 / 4] = 1 /\ magnitude_s s [1 / 2; 1 / 4] = 2 /\
  exists e, ForwardEvaluate_rnd_s (round_to 24) 30 s [1 / 2; 1 / 4] = Ok e /\ Rabs (e - 1) <= gamma 24 16 * 2.
Proof.
  intros s.
  assert (Hw : wf s) by (repeat split; discriminate).
  assert (HX : in_unit_box [1 / 2; 1 / 4]) by (constructor; [lra|constructor; [lra|constructor]]).
  assert (HD : Forall (fun q => (q < 30)%nat) (degrees s)) by (repeat constructor; lia).
  assert (HV : value_at s [1 / 2; 1 / 4] = 1) by (cbn; lra).
  assert (HM : magnitude_s s [1 / 2; 1 / 4] = 2).
  { cbn. rewrite (Rabs_right 1), (Rabs_right 2), (Rabs_right 3), (Rabs_left (-4)) by lra. lra. }
  split; [exact Hw|]. split; [exact HX|]. split; [exact HD|]. split; [reflexivity|]. split; [reflexivity|].
  split; [exact HV|]. split; [exact HM|].
  destruct (C72_forward_scalar 24 (round_to 24) 30 s [1 / 2; 1 / 4]) as (e & E & H); auto; [lia|apply nearest_round_to; lia|lia|].
  exists e. split; auto. rewrite HV, HM in H. exact H.
Qed.

(** C73: rational splines with positive weights. *)
Theorem C73_rational : forall p rnd d (r : rspline R (point R d)) xs, (0 < p)%nat -> nearest p rnd ->
  rwf r -> length xs = length (rdegrees r) -> in_unit_box xs ->
  Forall (fun w => 0 < w) (control_points (weight_function r)) ->
  exists e, R_Evaluate_rnd rnd r xs = Ok e /\ forall k, (k < d)%nat ->
    Rabs (coord d e k - coord d (rvalue r xs) k) <=
    ((1 + / 2 ^ p) ^ (casteljau_roundings (rdegrees r) + 2) / (1 - / 2 ^ p) ^ casteljau_roundings (rdegrees r) - 1) *
    (magnitude (weighted_spline r) xs k / value_at (weight_function r) xs).
Proof. exact c73_rational. Qed.
Print Assumptions C73_rational.
Theorem C73_magnitude : forall d (r : rspline R (point R d)) xs k M, rwf r -> length xs = length (rdegrees r) -> in_unit_box xs ->
  0 < value_at (weight_function r) xs ->
  (forall i, (i < n_coeffs (rdegrees r))%nat ->
     Rabs (coord d (nth i (control_points (weighted_spline r)) v0) k) <= M * nth i (control_points (weight_function r)) 0) ->
  magnitude (weighted_spline r) xs k / value_at (weight_function r) xs <= M.
Proof. exact c73_magnitude. Qed.
Print Assumptions C73_magnitude.
(** A rational segment with weights 1 and 3. *)
Example C73_case :
  let r : rspline R (point R 1) := mkR (mkSpline [1%nat] 2 [1%nat] [(2, tt); (3, tt)]) (mkSpline [1%nat] 2 [1%nat] [1; 3]) in
  rwf r /\ in_unit_box [1 / 2] /\ Forall (fun w => 0 < w) (control_points (weight_function r)) /\
  rvalue r [1 / 2] = (5 / 4, tt) /\ magnitude (weighted_spline r) [1 / 2] 0 / value_at (weight_function r) [1 / 2] = 5 / 4 /\
  exists e, R_Evaluate_rnd (round_to 53) r [1 / 2] = Ok e /\
    Rabs (coord 1 e 0 - 5 / 4) <= ((1 + / 2 ^ 53) ^ 5 / (1 - / 2 ^ 53) ^ 3 - 1) * (5 / 4).
Proof.
  intros r.
  assert (Hw : rwf r) by (repeat split; discriminate).
  assert (HX : in_unit_box [1 / 2]) by (constructor; [lra|constructor]).
  assert (HW : Forall (fun w => 0 < w) (control_points (weight_function r))) by (repeat constructor; lra).
  assert (HV : rvalue r [1 / 2] = (5 / 4, tt)) by (cbn; f_equal; lra).
  assert (HM : magnitude (weighted_spline r) [1 / 2] 0 / value_at (weight_function r) [1 / 2] = 5 / 4).
  { cbn. rewrite (Rabs_right 2), (Rabs_right 3) by lra. lra. }
  repeat (split; [assumption|]).
  destruct (C73_rational 53 (round_to 53) 1 r [1 / 2]) as (e & E & H); auto; [lia|apply nearest_round_to; lia|].
  exists e. split; auto. specialize (H 0%nat ltac:(lia)). rewrite HV, HM in H. exact H.
Qed.
