(** Properties C01, C03-C06, C08-C11, C13: indexing, basis functions, evaluation and
    order elevation of polynomial splines. *)
From Coq Require Import Arith Lia List ZArith NArith Bool QArith Qcanon.
From Verif Require Import Prelude Scalar Spec SpecSpline ModelBasis ModelSpline Examples ClaimsA.
Import ListNotations.
Local Open Scope nat_scope.

(** C01: scalar positions and multi-indices are in bijection, first direction fastest. *)
Theorem C01_index_bijection : forall (V : Type) (s : spline V), wf s ->
  (forall i, i < number_of_control_points s ->
     exists idx, LocalToGlobalIndex s i = Ok idx /\ valid_index (degrees s) idx /\
                 GlobalToLocalIndex s idx = Ok i) /\
  (forall idx, valid_index (degrees s) idx ->
     exists i, GlobalToLocalIndex s idx = Ok i /\ i < number_of_control_points s /\
               LocalToGlobalIndex s i = Ok idx /\ i = position (degrees s) idx).
Proof. exact c01_index_bijection. Qed.
Print Assumptions C01_index_bijection.
Example C01_case : wf ex_s /\ valid_index (degrees ex_s) [1; 2] /\
  GlobalToLocalIndex ex_s [1; 2] = Ok 7 /\ LocalToGlobalIndex ex_s 7 = Ok [1; 2].
Proof. case_. Qed.

(** C03: ControlPoint(i, j, ...) and ControlPoint(array) address the same point. *)
Theorem C03_control_point_access : forall (V : Type) (s : spline V) idx, wf s ->
  valid_index (degrees s) idx ->
  (Z.of_nat (number_of_control_points s) <= 2 ^ 32)%Z ->
  (exists x, ControlPoint_variadic s idx = Ok x /\ ControlPoint s idx = Ok x /\
             nth_error (control_points s) (position (degrees s) idx) = Some x) /\
  (forall v, exists s', SetControlPoint_variadic s idx v = Ok s' /\
     SetControlPoint s idx v = Ok s' /\ wf s' /\ degrees s' = degrees s /\
     ControlPoint s' idx = Ok v /\
     forall idx', valid_index (degrees s) idx' -> idx' <> idx ->
       ControlPoint s' idx' = ControlPoint s idx').
Proof. exact c03_control_point_access. Qed.
Print Assumptions C03_control_point_access.
Example C03_case : wf ex_s /\ valid_index (degrees ex_s) [2; 1] /\
  (Z.of_nat (number_of_control_points ex_s) <= 2 ^ 32)%Z /\
  ControlPoint_variadic ex_s [2; 1] = Ok (Q2Qc 6).
Proof. case_. Qed.

(** C04: the lookup table holds the binomial coefficients, and [binom] (Pascal's rule)
    is n! / (k! (n-k)!). *)
Theorem C04_binomial_table : forall maxb n i, maxb <= 68 -> n < maxb -> i <= n ->
  choose maxb n i = Ok (binom n i).
Proof. exact c04_binomial_table. Qed.
Print Assumptions C04_binomial_table.
Theorem C04_binomial_factorial : forall n k, k <= n ->
  (binom n k * (N.of_nat (fact k) * N.of_nat (fact (n - k))) = N.of_nat (fact n))%N.
Proof. exact c04_binomial_factorial. Qed.
Print Assumptions C04_binomial_factorial.
Example C04_case : choose 30 29 14 = Ok 77558760%N.
Proof. case_. Qed.
(** The bound 68 on the configured table size is sharp: with 69 rows an entry overflows. *)
Theorem C04_bound_sharp : choose 69 68 34 <> Ok (binom 68 34) /\ (2 ^ 64 <= binom 68 34)%N.
Proof. exact c04_bound_sharp. Qed.
Print Assumptions C04_bound_sharp.

(** C05: Bernstein values. *)
Theorem C05_bernstein_evaluate : forall (T : Type) (o : SOps T) (F : SField T) MAXB p (t : T),
  MAXB <= 68 -> p < MAXB ->
  exists r, BernsteinEvaluate MAXB p t = Ok r /\ length r = p + 1 /\
    forall i, i <= p ->
      nth i r s0 = smul (sofN (binom p i)) (smul (spow t i) (spow (ssub s1 t) (p - i))).
Proof. exact c05_bernstein_evaluate. Qed.
Print Assumptions C05_bernstein_evaluate.
Example C05_case : BernsteinEvaluate 30 2 (Q2Qc (1 # 3)) =
  Ok [Q2Qc (4 # 9); Q2Qc (4 # 9); Q2Qc (1 # 9)].
Proof. case_. Qed.

(** C06: partition of unity, non-negativity on the unit cube. *)
Theorem C06_partition_of_unity : forall (T V : Type) (o : SOps T) (ov : VOps T V) (F : SField T) MAXB
  (s : spline V) (xs : list T), MAXB <= 68 -> wf s -> length xs = length (degrees s) ->
  Forall (fun p => p < MAXB) (degrees s) ->
  exists r, BasisFunctions MAXB s xs = Ok r /\ length r = number_of_control_points s /\
    fold_right sadd s0 r = s1.
Proof. exact c06_partition_of_unity. Qed.
Print Assumptions C06_partition_of_unity.
Theorem C06_non_negative : forall (T V : Type) (o : SOps T) (ov : VOps T V) (F : SField T) (O : SOrder T) MAXB
  (s : spline V) (xs : list T), MAXB <= 68 -> wf s -> length xs = length (degrees s) ->
  Forall (fun p => p < MAXB) (degrees s) -> Forall in_unit xs ->
  exists r, BasisFunctions MAXB s xs = Ok r /\ Forall (fun b => sle s0 b) r.
Proof. exact c06_non_negative. Qed.
Print Assumptions C06_non_negative.
Example C06_case : wf ex_s /\ Forall (fun p => p < 30) (degrees ex_s) /\
  length [Q2Qc (1 # 3); Q2Qc (1 # 2)] = length (degrees ex_s) /\
  Forall in_unit [Q2Qc (1 # 3); Q2Qc (1 # 2)].
Proof. case_. Qed.

(** C08: RecursiveCombine is the tensor product in storage order. *)
Theorem C08_recursive_combine : forall (T : Type) (o : SOps T) (F : SField T) (fs : list (list T)),
  fs <> [] ->
  exists r, RecursiveCombine fs = Ok r /\ length r = prod (map (@length T) fs) /\
    forall idx, Forall2 (fun f i => i < length f) fs idx ->
      radix_position (map (@length T) fs) idx < length r /\
      nth (radix_position (map (@length T) fs) idx) r s0 = sprod (pick s0 fs idx).
Proof. exact c08_recursive_combine. Qed.
Print Assumptions C08_recursive_combine.
Example C08_case :
  RecursiveCombine [[Q2Qc 2; Q2Qc 3]; [Q2Qc 5; Q2Qc 7]] =
  Ok [Q2Qc 10; Q2Qc 15; Q2Qc 14; Q2Qc 21] /\
  Forall2 (fun f i => i < length f) [[Q2Qc 2; Q2Qc 3]; [Q2Qc 5; Q2Qc 7]] [1; 0].
Proof. case_. Qed.

(** C09: Evaluate returns the Bezier sum; the buffers are never left ([Ok]). *)
Theorem C09_evaluate : forall (T V : Type) (o : SOps T) (ov : VOps T V) (F : SField T) (M : VMod T V)
  (s : spline V) (xs : list T), wf s -> length xs = length (degrees s) ->
  Evaluate s xs = Ok (bezier (degrees s) xs (fun i => nth i (control_points s) v0)).
Proof. exact c09_evaluate. Qed.
Print Assumptions C09_evaluate.
Example C09_case : wf ex_p /\ Evaluate ex_p [Q2Qc (1 # 2); Q2Qc (1 # 3)] =
  Ok (Q2Qc (5 # 6), (Q2Qc (7 # 12), tt)).
Proof. case_. Qed.

(** C10: ForwardEvaluate = Evaluate. *)
Theorem C10_forward_evaluate : forall (T V : Type) (o : SOps T) (ov : VOps T V) (F : SField T) (M : VMod T V)
  MAXB (s : spline V) (xs : list T), MAXB <= 68 -> wf s -> length xs = length (degrees s) ->
  Forall (fun p => p < MAXB) (degrees s) ->
  ForwardEvaluate MAXB s xs = Evaluate s xs /\ is_ok (Evaluate s xs).
Proof. exact c10_forward_evaluate. Qed.
Print Assumptions C10_forward_evaluate.
Example C10_case : ForwardEvaluate 30 ex_p [Q2Qc (1 # 2); Q2Qc (1 # 3)] =
  Ok (Q2Qc (5 # 6), (Q2Qc (7 # 12), tt)).
Proof. case_. Qed.

(** C11: corners are interpolated ([true] is parameter value 1). *)
Theorem C11_corner_interpolation : forall (T V : Type) (o : SOps T) (ov : VOps T V) (F : SField T) (M : VMod T V)
  (s : spline V) (bs : list bool), wf s -> length bs = length (degrees s) ->
  exists x,
    Evaluate s (map (fun b : bool => if b then (s1 : T) else s0) bs) = Ok x /\
    ControlPoint s (map (fun pb => if snd pb : bool then fst pb else 0) (combine (degrees s) bs)) = Ok x.
Proof. exact c11_corner_interpolation. Qed.
Print Assumptions C11_corner_interpolation.
Example C11_case : Evaluate ex_s [s1; s0] = Ok (Q2Qc 3) /\ ControlPoint ex_s [2; 0] = Ok (Q2Qc 3).
Proof. case_. Qed.

(** C13: order elevation. *)
Theorem C13_order_elevate : forall (T V : Type) (o : SOps T) (ov : VOps T V) (F : SField T) (M : VMod T V)
  (s : spline V) k, wf s -> k < length (degrees s) ->
  (Z.of_nat (n_coeffs (upd_at k S (degrees s))) < 2 ^ 31)%Z ->
  exists s', OrderElevate s k = Ok s' /\ wf s' /\ degrees s' = upd_at k S (degrees s) /\
    forall xs : list T, length xs = length (degrees s) ->
      Evaluate s' xs = Evaluate s xs /\ is_ok (Evaluate s xs).
Proof. exact c13_order_elevate. Qed.
Print Assumptions C13_order_elevate.
Example C13_case : wf ex_s /\ 1 < length (degrees ex_s) /\
  (Z.of_nat (n_coeffs (upd_at 1 S (degrees ex_s))) < 2 ^ 31)%Z /\
  exists s', OrderElevate ex_s 1 = Ok s' /\ degrees s' = [2; 3] /\ length (control_points s') = 12.
Proof.
  case_.
  eexists; split; [vm_compute; reflexivity|]. split; reflexivity.
Qed.
