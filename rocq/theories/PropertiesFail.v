(** Property C110: objects after an exception. *)
From Coq Require Import Arith Lia List ZArith NArith Bool QArith Qcanon.
From Verif Require Import Prelude Scalar Spec SpecSpline ModelPoint ModelSpline ModelRational ModelSize ModelSize2 ModelFail ClaimsFail.
Import ListNotations.
Local Open Scope nat_scope.

(** C110: outcomes are those of the functions with 64-bit sizes; the object after a failed UpdateDegrees, elevation, sum or
    difference. *)
Theorem C110_outcomes : forall (T V : Type) (o : SOps T) (ov : VOps T V) (limit fuel : nat) (s rhs : spline V) (deg : list nat) (k : nat),
  outcome (UpdateDegrees_in (T := T) limit s deg) = UpdateDegrees_64 (T := T) limit s deg /\
  outcome (OrderElevate_in (T := T) limit s k) = OrderElevate_64 (T := T) limit s k /\
  outcome (spline_add_assign_in (T := T) limit fuel s rhs) = spline_add_assign_64 (T := T) limit fuel s rhs /\
  outcome (spline_sub_assign_in (T := T) limit fuel s rhs) = spline_sub_assign_64 (T := T) limit fuel s rhs.
Proof. exact c110_outcomes. Qed.
Print Assumptions C110_outcomes.
Theorem C110_update_degrees : forall (T V : Type) (o : SOps T) (ov : VOps T V) (limit : nat) (s : spline V) (deg : list nat),
  (Z.of_nat (n_coeffs deg) < 2 ^ 64)%Z -> limit < n_coeffs deg ->
  UpdateDegrees_in (T := T) limit s deg = (mkSpline deg (n_coeffs deg) (index_offsets s) (control_points s), Throw).
Proof. exact c110_update_degrees. Qed.
Print Assumptions C110_update_degrees.
(** Missing from the full property: the object can be used. *)
Theorem C110_update_degrees_refuted : forall (T V : Type) (o : SOps T) (ov : VOps T V) (limit : nat) (s : spline V) (p q : nat) (x : T),
  wf s -> degrees s = [p] -> p + 1 <= limit -> limit < q + 1 -> (Z.of_nat (q + 1) < 2 ^ 64)%Z ->
  exists y, UpdateDegrees_in (T := T) limit s [q] = (y, Throw) /\ Evaluate_64 y [x] = UB.
Proof. exact c110_update_degrees_refuted. Qed.
Print Assumptions C110_update_degrees_refuted.
Theorem C110_elevate : forall (T V : Type) (o : SOps T) (ov : VOps T V) (F : SField T) (M : VMod T V) (limit : nat) (s : spline V) (k : nat),
  wf s -> k < length (degrees s) -> (Z.of_nat (n_coeffs (upd_at k S (degrees s))) < 2 ^ 31)%Z ->
  n_coeffs (degrees s) <= limit -> limit < n_coeffs (upd_at k S (degrees s)) ->
  exists y, OrderElevate_in (T := T) limit s k = (y, Throw) /\ y = recount s (n_coeffs (upd_at k S (degrees s))) /\ ~ wf y /\
    UpdateDegrees_in (T := T) limit y (degrees y) = (s, Ok tt).
Proof. exact c110_elevate. Qed.
Print Assumptions C110_elevate.
Theorem C110_elevate_refuted : exists (s : spline Qc), wf s /\ is_ok (Evaluate_64 s [Q2Qc (1 # 2); Q2Qc (1 # 2)]) /\
  exists y, OrderElevate_in (T := Qc) 5 s 0 = (y, Throw) /\ Evaluate_64 y [Q2Qc (1 # 2); Q2Qc (1 # 2)] = UB.
Proof. exact c110_elevate_refuted. Qed.
Print Assumptions C110_elevate_refuted.
Theorem C110_assign : forall (T V : Type) (o : SOps T) (ov : VOps T V) (F : SField T) (M : VMod T V) (limit : nat) (a b : spline V),
  wf a -> wf b -> length (degrees a) = length (degrees b) -> n_coeffs (degrees a) <= limit ->
  let D := map2 Nat.max (degrees a) (degrees b) in
  (Z.of_nat (n_coeffs D) < 2 ^ 31)%Z -> limit < n_coeffs D ->
  exists z y, (forall fuel, list_max D < fuel -> spline_add_assign_in (T := T) limit fuel a b = (y, Throw) /\ spline_sub_assign_in (T := T) limit fuel a b = (y, Throw)) /\
    wf z /\ Forall2 le (degrees a) (degrees z) /\ (forall xs : list T, length xs = length (degrees a) -> Evaluate z xs = Evaluate a xs) /\
    (exists k, k < length (degrees z) /\ y = recount z (n_coeffs (upd_at k S (degrees z)))) /\ ~ wf y /\
    UpdateDegrees_in (T := T) limit y (degrees y) = (z, Ok tt).
Proof. exact c110_assign. Qed.
Print Assumptions C110_assign.
(** C110: rational splines. *)
Theorem C110_rational_elevate : forall (T V : Type) (o : SOps T) (ov : VOps T V) (F : SField T) (M : VMod T V) (limit limit_w : nat)
  (u : spline V) (w : spline T) (k : nat),
  wf u -> wf w -> degrees w = degrees u -> k < length (degrees u) ->
  let n := n_coeffs (upd_at k S (degrees u)) in
  (Z.of_nat n < 2 ^ 31)%Z -> n_coeffs (degrees u) <= limit -> n_coeffs (degrees u) <= limit_w ->
  (limit < n -> exists y, R_OrderElevate_in limit limit_w (mkR u w) k = (y, Throw) /\ y = mkR (recount u n) w /\
     R_UpdateDegrees_in limit limit_w y (degrees u) = (mkR u w, Ok tt)) /\
  (n <= limit -> limit_w < n -> exists y u', R_OrderElevate_in limit limit_w (mkR u w) k = (y, Throw) /\ y = mkR u' (recount w n) /\
     OrderElevate u k = Ok u' /\ compatible y = false).
Proof. exact c110_rational_elevate. Qed.
Print Assumptions C110_rational_elevate.
Theorem C110_rational_update : forall (T V : Type) (o : SOps T) (ov : VOps T V) (limit limit_w : nat) (u : spline V) (w : spline T) (deg : list nat),
  let n := n_coeffs deg in
  deg <> [] -> (Z.of_nat n < 2 ^ 64)%Z ->
  (limit_w < n -> R_UpdateDegrees_in limit limit_w (mkR u w) deg = (mkR u (mkSpline deg n (index_offsets w) (control_points w)), Throw)) /\
  (n <= limit_w -> limit < n -> exists w', UpdateDegrees w deg = Ok w' /\
     R_UpdateDegrees_in limit limit_w (mkR u w) deg = (mkR (mkSpline deg n (index_offsets u) (control_points u)) w', Throw)).
Proof. exact c110_rational_update. Qed.
Print Assumptions C110_rational_update.
(** Adding a cubic to a line where vectors hold three elements: the line has become a parabola with a wrong number of
    control points. *)
Example C110_case :
  let a : spline Qc := mkSpline [1] 2 [1] (map Q2Qc [0; 2]%Q) in
  let b : spline Qc := mkSpline [3] 4 [1] (map Q2Qc [1; 1; 1; 1]%Q) in
  wf a /\ wf b /\ list_max (map2 Nat.max (degrees a) (degrees b)) < 9 /\
  (exists y, spline_add_assign_in 3 9 a b = (y, Throw) /\ degrees y = [2] /\ number_of_control_points y = 4 /\ map this (control_points y) = [0; 1; 2]%Q) /\
  (exists y, spline_add_assign_in 4 9 a b = (y, Ok tt) /\ degrees y = [3] /\ number_of_control_points y = 4 /\ map this (control_points y) = [1; 5#3; 7#3; 3]%Q) /\
  (exists y, UpdateDegrees_in (T := Qc) 2 a [2] = (y, Throw) /\ degrees y = [2] /\ number_of_control_points y = 3 /\ length (control_points y) = 2) /\
  (exists y, R_OrderElevate_in 3 2 (mkR a a) 0 = (y, Throw) /\ degrees (weighted_spline y) = [2] /\ degrees (weight_function y) = [1]).
Proof.
  cbv zeta. split; [repeat split; discriminate|]. split; [repeat split; discriminate|]. split; [vm_compute; lia|].
  split; [eexists; split; [vm_compute; reflexivity|]; repeat split; vm_compute; reflexivity|].
  split; [eexists; split; [vm_compute; reflexivity|]; repeat split; vm_compute; reflexivity|].
  split; [eexists; split; [vm_compute; reflexivity|]; repeat split; vm_compute; reflexivity|].
  eexists; split; [vm_compute; reflexivity|]; repeat split; vm_compute; reflexivity.
Qed.
