(** Property C108: the operations of a spline with sizes in 64 bits. *)
From Coq Require Import Arith Lia List ZArith NArith Bool QArith Qcanon Reals.
From Verif Require Import Prelude Scalar Spec SpecSpline SpecReal Coord ModelBasis ModelPoint ModelSpline ModelSize ModelSize2 ClaimsSize2.
Import ListNotations.
Local Open Scope nat_scope.

(** C108: with fewer than 2^64 control points, each operation returns what it returns with unbounded sizes. *)
Theorem C108_evaluate : forall (T V : Type) (o : SOps T) (ov : VOps T V) (s : spline V) (xs : list T),
  wf s -> (Z.of_nat (n_coeffs (degrees s)) < 2 ^ 64)%Z ->
  (forall v, Evaluate s xs = Ok v -> Evaluate_64 s xs = Ok v) /\
  (SField T -> VMod T V -> length xs = length (degrees s) ->
   Evaluate_64 s xs = Ok (bezier (degrees s) xs (fun i => nth i (control_points s) v0))).
Proof. exact c108_evaluate. Qed.
Print Assumptions C108_evaluate.
Theorem C108_split : forall (T V : Type) (o : SOps T) (ov : VOps T V) (s : spline V) (x : T) (k : nat),
  wf s -> (Z.of_nat (n_coeffs (degrees s)) < 2 ^ 64)%Z ->
  (forall parts, SplitAtPosition s x k = Ok parts -> SplitAtPosition_64 s x k = Ok parts) /\
  (SField T -> VMod T V -> SOrder T -> k < length (degrees s) -> slt s0 x -> slt x s1 ->
   exists a b, SplitAtPosition_64 s x k = Ok [a; b] /\ wf a /\ wf b /\
     degrees a = degrees s /\ degrees b = degrees s /\
     forall xs : list T, length xs = length (degrees s) ->
       Evaluate_64 a xs = Evaluate_64 s (upd_list xs k (smul x (nth k xs s0))) /\
       Evaluate_64 b xs = Evaluate_64 s (upd_list xs k (sadd x (smul (ssub s1 x) (nth k xs s0))))).
Proof. exact c108_split. Qed.
Print Assumptions C108_split.
Theorem C108_splits : forall (T V : Type) (o : SOps T) (ov : VOps T V) (s : spline V) (planes : list T) (k : nat) parts,
  wf s -> (Z.of_nat (n_coeffs (degrees s)) < 2 ^ 64)%Z ->
  SplitAtPositions s planes k = Ok parts -> SplitAtPositions_64 s planes k = Ok parts.
Proof. exact c108_splits. Qed.
Print Assumptions C108_splits.
Theorem C108_elevate : forall (T V : Type) (o : SOps T) (ov : VOps T V) (limit : nat) (s : spline V) (k : nat), wf s ->
  (forall r, OrderElevate s k = Ok r -> (Z.of_nat (n_coeffs (degrees r)) < 2 ^ 64)%Z -> n_coeffs (degrees r) <= limit ->
     OrderElevate_64 limit s k = Ok r) /\
  (SField T -> VMod T V -> k < length (degrees s) ->
   (Z.of_nat (n_coeffs (upd_at k S (degrees s))) < 2 ^ 31)%Z -> n_coeffs (upd_at k S (degrees s)) <= limit ->
   exists r, OrderElevate_64 limit s k = Ok r /\ wf r /\ degrees r = upd_at k S (degrees s) /\
     forall xs : list T, length xs = length (degrees s) ->
       Evaluate_64 r xs = Evaluate_64 s xs /\ is_ok (Evaluate_64 s xs)).
Proof. exact c108_elevate. Qed.
Print Assumptions C108_elevate.
Theorem C108_sums : forall (T V : Type) (o : SOps T) (ov : VOps T V) (limit fuel : nat) (a b r : spline V),
  wf a -> wf b -> length (degrees a) = length (degrees b) ->
  (Z.of_nat (n_coeffs (map2 Nat.max (degrees a) (degrees b))) < 2 ^ 64)%Z ->
  n_coeffs (map2 Nat.max (degrees a) (degrees b)) <= limit ->
  (spline_add fuel a b = Ok r -> spline_add_64 limit fuel a b = Ok r) /\
  (spline_add_assign fuel a b = Ok r -> spline_add_assign_64 limit fuel a b = Ok r) /\
  (spline_sub fuel a b = Ok r -> spline_sub_64 limit fuel a b = Ok r) /\
  (spline_sub_assign fuel a b = Ok r -> spline_sub_assign_64 limit fuel a b = Ok r).
Proof. exact c108_sums. Qed.
Print Assumptions C108_sums.
Theorem C108_sums_values : forall (T V : Type) (o : SOps T) (ov : VOps T V) (F : SField T) (M : VMod T V) (limit : nat) (a b : spline V),
  wf a -> wf b -> length (degrees a) = length (degrees b) ->
  (Z.of_nat (n_coeffs (map2 Nat.max (degrees a) (degrees b))) < 2 ^ 31)%Z ->
  n_coeffs (map2 Nat.max (degrees a) (degrees b)) <= limit ->
  exists r d, returns (fun fuel => spline_add_64 limit fuel a b) r /\ returns (fun fuel => spline_add_assign_64 limit fuel a b) r /\
    returns (fun fuel => spline_sub_assign_64 limit fuel a b) d /\ wf r /\ wf d /\
    degrees r = map2 Nat.max (degrees a) (degrees b) /\ degrees d = map2 Nat.max (degrees a) (degrees b) /\
    forall xs : list T, length xs = length (degrees a) ->
      exists x y, Evaluate_64 a xs = Ok x /\ Evaluate_64 b xs = Ok y /\
        Evaluate_64 r xs = Ok (vadd x y) /\ Evaluate_64 d xs = Ok (vsub x y).
Proof. exact c108_sums_values. Qed.
Print Assumptions C108_sums_values.
Theorem C108_derivative : forall (T V : Type) (o : SOps T) (ov : VOps T V) (limit MAXB : nat) (s r : spline V) (orders : list nat),
  MAXB <= 68 -> wf s -> (Z.of_nat (n_coeffs (degrees s)) < 2 ^ 64)%Z -> n_coeffs (degrees s) <= limit ->
  DerivativeWRT MAXB s orders = Ok r -> DerivativeWRT_64 limit MAXB s orders = Ok r.
Proof. exact c108_derivative. Qed.
Print Assumptions C108_derivative.
Theorem C108_derivative_values : forall (V : Type) (ov : VOps R V) (M : VMod R V) (limit MAXB : nat)
  (s : spline V) (orders : list nat),
  MAXB <= 68 -> wf s -> (Z.of_nat (n_coeffs (degrees s)) < 2 ^ 64)%Z -> n_coeffs (degrees s) <= limit ->
  length orders = length (degrees s) ->
  Forall2 le orders (degrees s) -> Forall (fun k => k < MAXB) orders ->
  exists r f g, DerivativeWRT_64 limit MAXB s orders = Ok r /\ wf r /\
    degrees r = map2 Nat.sub (degrees s) orders /\
    (forall xs : list R, length xs = length (degrees s) -> Evaluate_64 s xs = Ok (f xs) /\ Evaluate_64 r xs = Ok (g xs)) /\
    forall (phi : V -> R) dirs, linear_form phi -> directions_of orders dirs ->
      mixed (fun xs => length xs = length (degrees s)) dirs (fun xs => phi (f xs)) (fun xs => phi (g xs)).
Proof. exact c108_derivative_values. Qed.
Print Assumptions C108_derivative_values.
Theorem C108_power : forall (T : Type) (o : SOps T) (limit MAXB : nat) (s r : spline T) (n : nat),
  MAXB <= 68 -> wf s -> (Z.of_nat (n_coeffs (map (Nat.mul n) (degrees s))) < 2 ^ 64)%Z -> n_coeffs (map (Nat.mul n) (degrees s)) <= limit ->
  RaisePower MAXB s n = Ok r -> RaisePower_64 limit MAXB s n = Ok r.
Proof. exact c108_power. Qed.
Print Assumptions C108_power.
Theorem C108_compose : forall (T V : Type) (o : SOps T) (ov : VOps T V) (limit MAXB d : nat) (outer : spline V) (inner : spline (point T d)),
  MAXB <= 68 -> wf outer -> wf inner ->
  (Z.of_nat (n_coeffs (degrees outer)) < 2 ^ 64)%Z ->
  (Z.of_nat (n_coeffs (degrees inner)) < 2 ^ 64)%Z -> n_coeffs (degrees inner) <= limit ->
  (Z.of_nat (n_coeffs (map (Nat.mul (list_sum (degrees outer))) (degrees inner))) < 2 ^ 64)%Z ->
  n_coeffs (map (Nat.mul (list_sum (degrees outer))) (degrees inner)) <= limit ->
  (forall r, Compose MAXB outer inner = Ok r -> Compose_64 limit MAXB outer inner = Ok r) /\
  (forall l, ComposeSensitivity MAXB outer inner = Ok l -> ComposeSensitivity_64 limit MAXB outer inner = Ok l).
Proof. exact c108_compose. Qed.
Print Assumptions C108_compose.
Theorem C108_compose_values : forall (T V : Type) (o : SOps T) (ov : VOps T V) (F : SField T) (M : VMod T V) (O : SOrder T)
  (limit MAXB : nat) (outer : spline V) (inner : spline (point T (length (degrees outer)))),
  MAXB <= 68 -> wf outer -> wf inner ->
  (Z.of_nat (n_coeffs (degrees outer)) < 2 ^ 64)%Z ->
  (Z.of_nat (n_coeffs (degrees inner)) < 2 ^ 64)%Z -> n_coeffs (degrees inner) <= limit ->
  (Z.of_nat (n_coeffs (map (Nat.mul (list_sum (degrees outer))) (degrees inner))) < 2 ^ 64)%Z ->
  n_coeffs (map (Nat.mul (list_sum (degrees outer))) (degrees inner)) <= limit ->
  (forall p k, In p (control_points inner) -> k < length (degrees outer) -> in_unit (coord _ p k)) ->
  Forall (fun p => list_sum (degrees outer) * p < MAXB) (degrees inner) ->
  Forall (fun p => p < MAXB) (degrees outer) ->
  exists r, Compose_64 limit MAXB outer inner = Ok r /\ wf r /\
    degrees r = map (fun p => list_sum (degrees outer) * p) (degrees inner) /\
    forall xs : list T, length xs = length (degrees inner) ->
      exists p v, Evaluate_64 inner xs = Ok p /\ Evaluate_64 outer (plist _ p) = Ok v /\ Evaluate_64 r xs = Ok v.
Proof. exact c108_compose_values. Qed.
Print Assumptions C108_compose_values.
(** C108: beyond the limit, and orders above the degree. *)
Theorem C108_elevate_limit : forall (T V : Type) (o : SOps T) (ov : VOps T V) (limit : nat) (s : spline V) (k : nat), wf s ->
  k < length (degrees s) -> (Z.of_nat (n_coeffs (degrees s)) < 2 ^ 31)%Z ->
  limit < n_coeffs (upd_at k S (degrees s)) -> OrderElevate_64 limit s k = Throw.
Proof. exact c108_elevate_limit. Qed.
Print Assumptions C108_elevate_limit.
Theorem C108_compose_limit : forall (T V : Type) (o : SOps T) (ov : VOps T V) (limit MAXB d : nat) (outer : spline V) (inner : spline (point T d)),
  FitsIntoUnitCube inner = Ok true -> (Z.of_nat (n_coeffs (degrees outer)) < 2 ^ 64)%Z ->
  (Z.of_nat (n_coeffs (map (fun p => (p * sum_degrees outer)%nat) (degrees inner))) < 2 ^ 64)%Z ->
  limit < n_coeffs (map (fun p => p * sum_degrees outer) (degrees inner)) -> Compose_64 limit MAXB outer inner = Throw.
Proof. exact c108_compose_limit. Qed.
Print Assumptions C108_compose_limit.
Theorem C108_derivative_beyond : forall (T V : Type) (o : SOps T) (ov : VOps T V) (limit MAXB : nat) (s : spline V) (k : nat), wf s ->
  (Z.of_nat (n_coeffs (degrees s)) < 2 ^ 64)%Z -> k < length (degrees s) ->
  exists r, DerivativeWRT_64 limit MAXB s (upd_list (repeat 0 (length (degrees s))) k (nth k (degrees s) 0 + 1)) = Ok r /\
    control_points r = [] /\ number_of_control_points r = 0 /\ Z.of_nat (nth k (degrees r) 0) = (2 ^ 64 - 1)%Z /\
    length (degrees r) = length (degrees s) /\ (forall j, j <> k -> nth j (degrees r) 0 = nth j (degrees s) 0) /\
    forall xs : list T, length xs = length (degrees s) -> Evaluate_64 r xs = UB.
Proof. exact c108_derivative_beyond. Qed.
Print Assumptions C108_derivative_beyond.
Theorem C108_derivative_far_beyond : forall (T V : Type) (o : SOps T) (ov : VOps T V) (limit MAXB : nat) (s : spline V) (p k : nat), wf s ->
  degrees s = [p] -> p + 2 <= k -> (Z.of_nat k < 2 ^ 64)%Z -> MAXB <= 68 ->
  DerivativeWRT_64 limit MAXB s [k] = (if (Z.of_nat k mod 2 ^ 32 <? Z.of_nat MAXB)%Z then UB else AssertFail).
Proof. exact c108_derivative_far_beyond. Qed.
Print Assumptions C108_derivative_far_beyond.
Example C108_case :
  let s : spline Qc := mkSpline [2; 1] 6 [1; 3] (map Q2Qc [0; 1; 4; 2; 3; 8]%Q) in
  let t : spline Qc := mkSpline [1; 1] 4 [1; 2] (map Q2Qc [1; 0; 2; 2]%Q) in
  let out (r : res (spline Qc)) := match r with Ok x => Some (degrees x, map this (control_points x)) | _ => None end in
  wf s /\ wf t /\ (Z.of_nat (n_coeffs (map2 Nat.max (degrees s) (degrees t))) < 2 ^ 31)%Z /\
  (exists v, Evaluate_64 s [Q2Qc (1#2); Q2Qc (1#2)] = Ok v /\ this v = (11#4)%Q) /\
  out (spline_add_64 100 9 s t) = Some ([2; 1], [1; 3#2; 4; 4; 5; 10]%Q) /\
  spline_add_64 5 9 t s = Throw /\ OrderElevate_64 7 s 0 = Throw /\
  DerivativeWRT_64 100 30 (mkSpline [1] 2 [1] (map Q2Qc [0; 1]%Q)) [3] = UB /\
  out (DerivativeWRT_64 100 30 s [1; 0]) = Some ([1; 1], [2; 6; 2; 10]%Q) /\
  out (RaisePower_64 100 30 t 2) = Some ([2; 2], [1; 0; 0; 2; 1; 0; 4; 4; 4]%Q) /\
  (exists c, Compose_64 (T := Qc) 100 30 t (mkSpline [1] 2 [1] [(Q2Qc 0, (Q2Qc 0, tt)); (Q2Qc 1, (Q2Qc 1, tt))] : spline (point Qc 2)) = Ok c /\
     degrees c = [2] /\ map this (control_points c) = [1; 1; 2]%Q).
Proof.
  cbv zeta. split; [repeat split; discriminate|]. split; [repeat split; discriminate|]. split; [vm_compute; reflexivity|].
  split; [eexists; split; vm_compute; reflexivity|].
  do 3 (split; [vm_compute; reflexivity|]).
  split; [rewrite (c108_derivative_far_beyond Qc Qc _ _ 100 30 _ 1 3); [reflexivity|repeat split; discriminate|reflexivity|lia|vm_compute; reflexivity|lia]|].
  do 2 (split; [vm_compute; reflexivity|]).
  eexists; split; [vm_compute; reflexivity|]. split; vm_compute; reflexivity.
Qed.
