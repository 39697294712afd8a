(** Property C112: the operations of a rational spline with sizes in 64 bits. *)
From Coq Require Import Arith Lia List ZArith NArith Bool QArith Qcanon Reals.
From Verif Require Import Prelude Scalar Spec SpecSpline SpecRational SpecReal Coord ModelBasis ModelPoint ModelSpline ModelRational ModelSize ModelSize2 ModelSize3 ClaimsSize3.
Import ListNotations.
Local Open Scope nat_scope.

(** C112: with few enough control points, each operation returns what it returns with unbounded sizes. *)
Theorem C112_construct : forall (T V : Type) (o : SOps T) (ov : VOps T V) (limit limit_w : nat) (deg : list nat),
  deg <> [] -> (Z.of_nat (n_coeffs deg) < 2 ^ 64)%Z -> n_coeffs deg <= limit -> n_coeffs deg <= limit_w ->
  R_deg_64 limit limit_w deg = R_deg (T := T) (V := V) deg /\
  (forall (pts : list V) (ws : list T), R_deg_points_64 limit deg pts ws = R_deg_points deg pts ws) /\
  (forall r : rspline T V, R_UpdateDegrees_64 limit limit_w r deg = R_UpdateDegrees r deg) /\
  (forall s : spline V, degrees s = deg -> R_of_spline_64 s = R_of_spline (T := T) s).
Proof. exact c112_construct. Qed.
Print Assumptions C112_construct.
Theorem C112_construct_limit : forall (T V : Type) (o : SOps T) (ov : VOps T V) (limit limit_w : nat) (deg : list nat),
  deg <> [] -> (Z.of_nat (n_coeffs deg) < 2 ^ 64)%Z -> limit < n_coeffs deg \/ limit_w < n_coeffs deg ->
  R_deg_64 (T := T) (V := V) limit limit_w deg = Throw /\
  (limit < n_coeffs deg -> forall (pts : list V) (ws : list T), R_deg_points_64 limit deg pts ws = Throw) /\
  (forall r : rspline T V, R_UpdateDegrees_64 limit limit_w r deg = Throw).
Proof. exact c112_construct_limit. Qed.
Print Assumptions C112_construct_limit.
Theorem C112_evaluate : forall (T V : Type) (o : SOps T) (ov : VOps T V) (r : rspline T V),
  rwf r -> (Z.of_nat (n_coeffs (rdegrees r)) < 2 ^ 64)%Z ->
  (forall idx v, R_ControlPoint r idx = Ok v -> R_ControlPoint_64 r idx = Ok v) /\
  (forall xs v, R_Evaluate r xs = Ok v -> R_Evaluate_64 r xs = Ok v) /\
  (SField T -> VMod T V -> forall xs, length xs = length (rdegrees r) -> R_Evaluate_64 r xs = R_Evaluate r xs).
Proof. exact c112_evaluate. Qed.
Print Assumptions C112_evaluate.
Theorem C112_elevate : forall (T V : Type) (o : SOps T) (ov : VOps T V) (limit limit_w : nat) (r : rspline T V) (k : nat), rwf r ->
  (forall r', R_OrderElevate r k = Ok r' -> (Z.of_nat (n_coeffs (rdegrees r')) < 2 ^ 64)%Z ->
     n_coeffs (rdegrees r') <= limit -> n_coeffs (rdegrees r') <= limit_w -> R_OrderElevate_64 limit limit_w r k = Ok r') /\
  (SField T -> VMod T V -> k < length (rdegrees r) -> (Z.of_nat (n_coeffs (upd_at k S (rdegrees r))) < 2 ^ 31)%Z ->
   (n_coeffs (upd_at k S (rdegrees r)) <= limit -> n_coeffs (upd_at k S (rdegrees r)) <= limit_w ->
    exists r', R_OrderElevate_64 limit limit_w r k = Ok r' /\ rwf r' /\ rdegrees r' = upd_at k S (rdegrees r) /\
      forall xs : list T, length xs = length (rdegrees r) -> R_Evaluate_64 r' xs = R_Evaluate_64 r xs) /\
   (limit < n_coeffs (upd_at k S (rdegrees r)) \/ limit_w < n_coeffs (upd_at k S (rdegrees r)) ->
    R_OrderElevate_64 limit limit_w r k = Throw)).
Proof. exact c112_elevate. Qed.
Print Assumptions C112_elevate.
Theorem C112_split : forall (T V : Type) (o : SOps T) (ov : VOps T V) (r : rspline T V) (k : nat),
  rwf r -> (Z.of_nat (n_coeffs (rdegrees r)) < 2 ^ 64)%Z ->
  (forall x parts, R_SplitAtPosition r x k = Ok parts -> R_SplitAtPosition_64 r x k = Ok parts) /\
  (forall planes parts, R_SplitAtPositions r planes k = Ok parts -> R_SplitAtPositions_64 r planes k = Ok parts) /\
  (SField T -> VMod T V -> SOrder T -> forall x, k < length (rdegrees r) -> slt s0 x -> slt x s1 ->
   exists a b, R_SplitAtPosition_64 r x k = Ok [a; b] /\ rwf a /\ rwf b /\
     rdegrees a = rdegrees r /\ rdegrees b = rdegrees r /\
     forall xs : list T, length xs = length (rdegrees r) ->
       R_Evaluate_64 a xs = R_Evaluate_64 r (upd_list xs k (smul x (nth k xs s0))) /\
       R_Evaluate_64 b xs = R_Evaluate_64 r (upd_list xs k (sadd x (smul (ssub s1 x) (nth k xs s0))))).
Proof. exact c112_split. Qed.
Print Assumptions C112_split.
Theorem C112_sums : forall (T V : Type) (o : SOps T) (ov : VOps T V) (limit limit_w MAXB fuel : nat) (r s : rspline T V),
  MAXB <= 68 -> rwf r -> rwf s -> length (rdegrees s) = length (rdegrees r) ->
  (Z.of_nat (n_coeffs (map2 Nat.add (rdegrees r) (rdegrees s))) < 2 ^ 64)%Z ->
  n_coeffs (map2 Nat.add (rdegrees r) (rdegrees s)) <= limit -> n_coeffs (map2 Nat.add (rdegrees r) (rdegrees s)) <= limit_w ->
  forall c,
  (R_add MAXB fuel r s = Ok c -> R_add_64 limit limit_w MAXB fuel r s = Ok c) /\
  (R_add_assign MAXB fuel r s = Ok c -> R_add_assign_64 limit limit_w MAXB fuel r s = Ok c) /\
  (R_sub MAXB fuel r s = Ok c -> R_sub_64 limit limit_w MAXB fuel r s = Ok c) /\
  (R_sub_assign MAXB fuel r s = Ok c -> R_sub_assign_64 limit limit_w MAXB fuel r s = Ok c).
Proof. exact c112_sums. Qed.
Print Assumptions C112_sums.
Theorem C112_sums_values : forall (T V : Type) (o : SOps T) (ov : VOps T V) (F : SField T) (M : VMod T V) (limit limit_w MAXB fuel : nat) (r s : rspline T V),
  MAXB <= 68 -> rwf r -> rwf s -> length (rdegrees s) = length (rdegrees r) ->
  Forall (fun p => p < MAXB) (map2 Nat.add (rdegrees r) (rdegrees s)) ->
  (Z.of_nat (n_coeffs (map2 Nat.add (rdegrees r) (rdegrees s))) < 2 ^ 31)%Z ->
  n_coeffs (map2 Nat.add (rdegrees r) (rdegrees s)) <= limit -> n_coeffs (map2 Nat.add (rdegrees r) (rdegrees s)) <= limit_w ->
  list_max (map2 Nat.add (rdegrees r) (rdegrees s)) + 1 < fuel ->
  (exists c, R_add_64 limit limit_w MAXB fuel r s = Ok c /\ R_add_assign_64 limit limit_w MAXB fuel r s = Ok c /\ rwf c /\
     forall xs : list T, rdomain r xs -> rdomain s xs ->
       exists a b, R_Evaluate_64 r xs = Ok a /\ R_Evaluate_64 s xs = Ok b /\ R_Evaluate_64 c xs = Ok (vadd a b)) /\
  (exists c, R_sub_64 limit limit_w MAXB fuel r s = Ok c /\ R_sub_assign_64 limit limit_w MAXB fuel r s = Ok c /\ rwf c /\
     forall xs : list T, rdomain r xs -> rdomain s xs ->
       exists a b, R_Evaluate_64 r xs = Ok a /\ R_Evaluate_64 s xs = Ok b /\ R_Evaluate_64 c xs = Ok (vsub a b)).
Proof. exact c112_sums_values. Qed.
Print Assumptions C112_sums_values.
Theorem C112_product : forall (T V1 V2 V3 : Type) (o : SOps T) (o3 : VOps T V3) (pmul : V1 -> V2 -> V3) (limit limit_w MAXB : nat)
  (r : rspline T V1) (s : rspline T V2) c,
  MAXB <= 68 -> rwf r -> rwf s -> length (rdegrees s) = length (rdegrees r) ->
  (Z.of_nat (n_coeffs (map2 Nat.add (rdegrees r) (rdegrees s))) < 2 ^ 64)%Z ->
  n_coeffs (map2 Nat.add (rdegrees r) (rdegrees s)) <= limit -> n_coeffs (map2 Nat.add (rdegrees r) (rdegrees s)) <= limit_w ->
  R_mul MAXB pmul r s = Ok c -> R_mul_64 limit limit_w MAXB pmul r s = Ok c.
Proof. exact c112_product. Qed.
Print Assumptions C112_product.
Theorem C112_product_values : forall (T V : Type) (o : SOps T) (ov : VOps T V) (F : SField T) (M : VMod T V) (limit limit_w MAXB : nat)
  (r : rspline T V) (s : rspline T T),
  MAXB <= 68 -> rwf r -> rwf s -> length (rdegrees s) = length (rdegrees r) ->
  Forall (fun p => p < MAXB) (map2 Nat.add (rdegrees r) (rdegrees s)) ->
  (Z.of_nat (n_coeffs (map2 Nat.add (rdegrees r) (rdegrees s))) < 2 ^ 64)%Z ->
  n_coeffs (map2 Nat.add (rdegrees r) (rdegrees s)) <= limit -> n_coeffs (map2 Nat.add (rdegrees r) (rdegrees s)) <= limit_w ->
  exists c : rspline T V, R_mul_64 limit limit_w MAXB (fun p k => vscale k p) r s = Ok c /\ rwf c /\
    rdegrees c = map2 Nat.add (rdegrees r) (rdegrees s) /\
    forall xs : list T, rdomain r xs -> rdomain s xs ->
      exists p k, R_Evaluate_64 r xs = Ok p /\ R_Evaluate_64 s xs = Ok k /\ R_Evaluate_64 c xs = Ok (vscale k p).
Proof. exact c112_product_values. Qed.
Print Assumptions C112_product_values.
Theorem C112_derivative : forall (T V : Type) (o : SOps T) (ov : VOps T V) (limit limit_w MAXB fuel : nat) (r r' : rspline T V) (orders : list nat),
  MAXB <= 68 -> rwf r -> let final := map (Nat.mul (2 ^ list_sum orders)) (rdegrees r) in
  (Z.of_nat (n_coeffs final) < 2 ^ 64)%Z -> n_coeffs final <= limit -> n_coeffs final <= limit_w ->
  R_DerivativeWRT MAXB fuel r orders = Ok r' -> R_DerivativeWRT_64 limit limit_w MAXB fuel r orders = Ok r'.
Proof. exact c112_derivative. Qed.
Print Assumptions C112_derivative.
Theorem C112_derivative_values : forall (V : Type) (ov : VOps R V) (M : VMod R V) (limit limit_w MAXB fuel : nat)
  (r : rspline R V) (orders : list nat),
  MAXB <= 68 -> rwf r -> length orders = length (rdegrees r) ->
  (forall k, k < length orders -> 0 < nth k orders 0 -> 1 <= nth k (rdegrees r) 0) ->
  let final := map (Nat.mul (2 ^ list_sum orders)) (rdegrees r) in
  Forall (fun p => p < MAXB) final -> (Z.of_nat (n_coeffs final) < 2 ^ 31)%Z -> n_coeffs final <= limit -> n_coeffs final <= limit_w ->
  list_max final + 1 < fuel ->
  exists r' f g, R_DerivativeWRT_64 limit limit_w MAXB fuel r orders = Ok r' /\ rwf r' /\ rdegrees r' = final /\
    (forall xs : list R, rdomain r xs -> R_Evaluate_64 r xs = Ok (f xs) /\ R_Evaluate_64 r' xs = Ok (g xs)) /\
    forall (phi : V -> R) dirs, linear_form phi -> directions_of orders dirs ->
      mixed (rdomain r) dirs (fun xs => phi (f xs)) (fun xs => phi (g xs)).
Proof. exact c112_derivative_values. Qed.
Print Assumptions C112_derivative_values.
Theorem C112_compose_pr : forall (T V : Type) (o : SOps T) (ov : VOps T V) (limit MAXB fuel d : nat) (outer : spline V) (inner : rspline T (point T d)),
  MAXB <= 68 -> wf outer -> rwf inner ->
  (Z.of_nat (n_coeffs (degrees outer)) < 2 ^ 64)%Z ->
  (Z.of_nat (n_coeffs (rdegrees inner)) < 2 ^ 64)%Z -> n_coeffs (rdegrees inner) <= limit ->
  (Z.of_nat (n_coeffs (map (Nat.mul (list_sum (degrees outer))) (rdegrees inner))) < 2 ^ 64)%Z ->
  n_coeffs (map (Nat.mul (list_sum (degrees outer))) (rdegrees inner)) <= limit ->
  (forall r, Compose_PR MAXB fuel outer inner = Ok r -> Compose_PR_64 limit MAXB fuel outer inner = Ok r) /\
  (forall l, ComposeSensitivity_PR MAXB fuel outer inner = Ok l -> ComposeSensitivity_PR_64 limit MAXB fuel outer inner = Ok l).
Proof. exact c112_compose_pr. Qed.
Print Assumptions C112_compose_pr.
Theorem C112_compose_rp : forall (T V : Type) (o : SOps T) (ov : VOps T V) (limit MAXB d : nat) (outer : rspline T V) (inner : spline (point T d)),
  MAXB <= 68 -> rwf outer -> wf inner ->
  (Z.of_nat (n_coeffs (rdegrees outer)) < 2 ^ 64)%Z ->
  (Z.of_nat (n_coeffs (degrees inner)) < 2 ^ 64)%Z -> n_coeffs (degrees inner) <= limit ->
  (Z.of_nat (n_coeffs (map (Nat.mul (list_sum (rdegrees outer))) (degrees inner))) < 2 ^ 64)%Z ->
  n_coeffs (map (Nat.mul (list_sum (rdegrees outer))) (degrees inner)) <= limit ->
  (forall r, Compose_RP MAXB outer inner = Ok r -> Compose_RP_64 limit MAXB outer inner = Ok r) /\
  (forall l, ComposeSensitivity_RP MAXB outer inner = Ok l -> ComposeSensitivity_RP_64 limit MAXB outer inner = Ok l).
Proof. exact c112_compose_rp. Qed.
Print Assumptions C112_compose_rp.
Theorem C112_compose_rr : forall (T V : Type) (o : SOps T) (ov : VOps T V) (limit MAXB fuel d : nat) (outer : rspline T V) (inner : rspline T (point T d)),
  MAXB <= 68 -> rwf outer -> rwf inner ->
  (Z.of_nat (n_coeffs (rdegrees outer)) < 2 ^ 64)%Z ->
  (Z.of_nat (n_coeffs (rdegrees inner)) < 2 ^ 64)%Z -> n_coeffs (rdegrees inner) <= limit ->
  (Z.of_nat (n_coeffs (map (Nat.mul (list_sum (rdegrees outer))) (rdegrees inner))) < 2 ^ 64)%Z ->
  n_coeffs (map (Nat.mul (list_sum (rdegrees outer))) (rdegrees inner)) <= limit ->
  (forall r, Compose_RR MAXB fuel outer inner = Ok r -> Compose_RR_64 limit MAXB fuel outer inner = Ok r) /\
  (forall l, ComposeSensitivity_RR MAXB fuel outer inner = Ok l -> ComposeSensitivity_RR_64 limit MAXB fuel outer inner = Ok l).
Proof. exact c112_compose_rr. Qed.
Print Assumptions C112_compose_rr.
Theorem C112_compose_values : forall (T V : Type) (o : SOps T) (ov : VOps T V) (F : SField T) (M : VMod T V)
  (limit MAXB fuel : nat) (outer : rspline T V) (inner : rspline T (point T (length (rdegrees outer)))),
  MAXB <= 68 -> rwf outer -> rwf inner ->
  (Z.of_nat (n_coeffs (rdegrees outer)) < 2 ^ 64)%Z ->
  (Z.of_nat (n_coeffs (rdegrees inner)) < 2 ^ 31)%Z -> n_coeffs (rdegrees inner) <= limit ->
  (Z.of_nat (n_coeffs (map (Nat.mul (list_sum (rdegrees outer))) (rdegrees inner))) < 2 ^ 64)%Z ->
  n_coeffs (map (Nat.mul (list_sum (rdegrees outer))) (rdegrees inner)) <= limit ->
  Forall (fun p => list_sum (rdegrees outer) * p < MAXB) (rdegrees inner) ->
  Forall (fun p => p < MAXB) (rdegrees outer) -> list_max (rdegrees inner) + 1 < fuel ->
  exists r, Compose_RR_64 limit MAXB fuel outer inner = Ok r /\ rwf r /\
    rdegrees r = map (fun p => list_sum (rdegrees outer) * p) (rdegrees inner) /\
    forall xs : list T, rdomain inner xs ->
      exists p, R_Evaluate_64 inner xs = Ok p /\ R_Evaluate_64 r xs = R_Evaluate_64 outer (plist _ p) /\
        (rdomain outer (plist _ p) -> is_ok (R_Evaluate_64 r xs)).
Proof. exact c112_compose_values. Qed.
Print Assumptions C112_compose_values.
(** C112: the derivative along a direction of degree zero divides by zero. *)
Theorem C112_derivative_constant : forall (T V : Type) (o : SOps T) (ov : VOps T V) (limit limit_w MAXB fuel : nat) (r : rspline T V) (k : nat),
  rwf r -> (Z.of_nat (n_coeffs (rdegrees r)) < 2 ^ 64)%Z -> k < length (rdegrees r) -> nth k (rdegrees r) 0 = 0 -> 0 < fuel ->
  R_DerivativeWRT_64 limit limit_w MAXB fuel r (upd_list (repeat 0 (length (rdegrees r))) k 1) = UB.
Proof. exact c112_derivative_constant. Qed.
Print Assumptions C112_derivative_constant.
Example C112_case :
  let r : rspline Qc Qc := mkR (mkSpline [1; 0] 2 [1; 2] (map Q2Qc [0; 2]%Q)) (mkSpline [1; 0] 2 [1; 2] (map Q2Qc [1; 2]%Q)) in
  let s : rspline Qc Qc := mkR (mkSpline [0; 1] 2 [1; 1] (map Q2Qc [1; 4]%Q)) (mkSpline [0; 1] 2 [1; 1] (map Q2Qc [1; 2]%Q)) in
  let i : rspline Qc (point Qc 2) := mkR (mkSpline [1] 2 [1] [(Q2Qc 0, (Q2Qc 1, tt)); (Q2Qc 1, (Q2Qc 0, tt))]) (mkSpline [1] 2 [1] (map Q2Qc [1; 2]%Q)) in
  let out (c : res (rspline Qc Qc)) := match c with Ok x => Some (rdegrees x, map this (control_points (weighted_spline x)), map this (control_points (weight_function x))) | _ => None end in
  rwf r /\ rwf s /\ rwf i /\ (Z.of_nat (n_coeffs (map2 Nat.add (rdegrees r) (rdegrees s))) < 2 ^ 31)%Z /\
  (exists v, R_Evaluate_64 r [Q2Qc (1#2); Q2Qc (1#2)] = Ok v /\ this v = (2#3)%Q) /\
  out (R_OrderElevate_64 3 3 r 0) = Some ([2; 0], [0; 1; 2]%Q, [1; 3#2; 2]%Q) /\
  R_OrderElevate_64 2 3 r 0 = Throw /\ R_OrderElevate_64 3 2 r 0 = Throw /\
  out (R_add_64 4 4 9 9 r s) = Some ([1; 1], [1; 4; 4; 12]%Q, [1; 2; 2; 4]%Q) /\
  out (R_mul_64 4 4 9 (fun a b => smul a b) r s) = Some ([1; 1], [0; 2; 0; 8]%Q, [1; 2; 2; 4]%Q) /\
  R_mul_64 4 3 9 (fun a b => smul a b) r s = Throw /\
  out (R_DerivativeWRT_64 3 3 9 9 r [1; 0]) = Some ([2; 0], [2; 2; 2]%Q, [1; 2; 4]%Q) /\
  R_DerivativeWRT_64 100 100 9 9 r (upd_list (repeat 0 2) 1 1) = UB /\
  out (Compose_RR_64 3 9 9 r i) = out (Compose_RR 9 9 r i) /\ out (Compose_RR 9 9 r i) <> None.
Proof.
  cbv zeta. do 3 (split; [repeat split; discriminate|]). split; [vm_compute; reflexivity|].
  split; [eexists; split; vm_compute; reflexivity|].
  do 7 (split; [vm_compute; reflexivity|]).
  split; [match goal with |- R_DerivativeWRT_64 _ _ _ _ ?r _ = _ => refine (c112_derivative_constant Qc Qc _ _ 100 100 9 9 r 1 _ _ _ _ _) end; [repeat split; discriminate|vm_compute; reflexivity|cbn; lia|reflexivity|lia]|].
  split; [vm_compute; reflexivity|vm_compute; discriminate].
Qed.
