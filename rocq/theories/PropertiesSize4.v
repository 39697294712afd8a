(** Property C113: basis functions, forward evaluation and evaluated derivatives with sizes in 64 bits. *)
From Coq Require Import Arith Lia List ZArith NArith Bool QArith Qcanon Reals.
From Verif Require Import Prelude Scalar Spec SpecSpline SpecRational SpecReal Coord ModelBasis ModelPoint ModelSpline ModelRational ModelSize ModelSize2 ModelSize3 ModelSize4 ProofLeibniz ClaimsSize4.
Import ListNotations.
Local Open Scope nat_scope.

(** C113: if the vectors can be allocated, each function returns what it returns with unbounded sizes. *)
Theorem C113_basis : forall (T V : Type) (o : SOps T) (ov : VOps T V) (MAXB limit_w : nat) (s : spline V) (xs : list T) (orders : list nat),
  MAXB <= 68 -> wf s -> n_coeffs (degrees s) <= limit_w ->
  (forall l, BasisFunctions MAXB s xs = Ok l -> BasisFunctions_64 MAXB limit_w s xs = Ok l) /\
  (forall v, ForwardEvaluate MAXB s xs = Ok v -> ForwardEvaluate_64 MAXB limit_w s xs = Ok v) /\
  (forall l, BasisFunctionsDerivatives MAXB s xs orders = Ok l -> BasisFunctionsDerivatives_64 MAXB limit_w s xs orders = Ok l) /\
  (forall v, EvaluateDerivative MAXB s xs orders = Ok v -> EvaluateDerivative_64 MAXB limit_w s xs orders = Ok v).
Proof. exact c113_basis. Qed.
Print Assumptions C113_basis.
Theorem C113_forward : forall (T V : Type) (o : SOps T) (ov : VOps T V) (F : SField T) (M : VMod T V) (MAXB limit_w : nat) (s : spline V) (xs : list T),
  MAXB <= 68 -> wf s -> (Z.of_nat (n_coeffs (degrees s)) < 2 ^ 64)%Z -> n_coeffs (degrees s) <= limit_w ->
  length xs = length (degrees s) -> Forall (fun p => p < MAXB) (degrees s) ->
  exists v, ForwardEvaluate_64 MAXB limit_w s xs = Ok v /\ Evaluate_64 s xs = Ok v.
Proof. exact c113_forward. Qed.
Print Assumptions C113_forward.
Theorem C113_derivative : forall (V : Type) (ov : VOps R V) (M : VMod R V) (MAXB limit_w : nat) (s : spline V) (orders : list nat),
  MAXB <= 68 -> wf s -> (Z.of_nat (n_coeffs (degrees s)) < 2 ^ 64)%Z -> n_coeffs (degrees s) <= limit_w ->
  length orders = length (degrees s) -> Forall (fun p => p < MAXB) (degrees s) ->
  exists f g, (forall xs : list R, length xs = length (degrees s) ->
      Evaluate_64 s xs = Ok (f xs) /\ EvaluateDerivative_64 MAXB limit_w s xs orders = Ok (g xs)) /\
    forall (phi : V -> R) dirs, linear_form phi -> directions_of orders dirs ->
      mixed (fun xs => length xs = length (degrees s)) dirs (fun xs => phi (f xs)) (fun xs => phi (g xs)).
Proof. exact c113_derivative. Qed.
Print Assumptions C113_derivative.
Theorem C113_rational : forall (T V : Type) (o : SOps T) (ov : VOps T V) (MAXB limit limit_w limit_r : nat) (r : rspline T V) (xs : list T) (orders : list nat),
  MAXB <= 68 -> rwf r -> n_coeffs (rdegrees r) <= limit_w ->
  (forall l, R_BasisFunctions MAXB r xs = Ok l -> R_BasisFunctions_64 MAXB limit_w r xs = Ok l) /\
  (forall l, R_UnweightedBasisFunctions MAXB r xs = Ok l -> R_UnweightedBasisFunctions_64 MAXB limit_w r xs = Ok l) /\
  (forall v, R_ForwardEvaluate MAXB r xs = Ok v -> R_ForwardEvaluate_64 MAXB limit_w r xs = Ok v) /\
  ((Z.of_nat (n_coeffs orders) < 2 ^ 64)%Z -> n_coeffs orders <= limit_w ->
   (forall v, n_coeffs orders <= limit -> R_EvaluateDerivative MAXB r xs orders = Ok v -> R_EvaluateDerivative_64 MAXB limit limit_w r xs orders = Ok v) /\
   (forall l, n_coeffs orders <= limit_r -> R_BasisFunctionsDerivatives MAXB r xs orders = Ok l -> R_BasisFunctionsDerivatives_64 MAXB limit_w limit_r r xs orders = Ok l)).
Proof. exact c113_rational. Qed.
Print Assumptions C113_rational.
Theorem C113_rational_derivative : forall (V : Type) (ov : VOps R V) (M : VMod R V) (MAXB limit limit_w : nat) (r : rspline R V) (orders : list nat),
  MAXB <= 68 -> rwf r -> (Z.of_nat (n_coeffs (rdegrees r)) < 2 ^ 64)%Z -> n_coeffs (rdegrees r) <= limit_w -> length orders = length (rdegrees r) ->
  Forall (fun p => p < MAXB) (rdegrees r) -> Forall (fun k => k < MAXB) orders -> binoms_fit orders ->
  (Z.of_nat (n_coeffs orders) < 2 ^ 64)%Z -> n_coeffs orders <= limit -> n_coeffs orders <= limit_w ->
  exists f g, (forall xs : list R, rdomain r xs ->
      R_Evaluate_64 r xs = Ok (f xs) /\ R_EvaluateDerivative_64 MAXB limit limit_w r xs orders = Ok (g xs)) /\
    forall (phi : V -> R) dirs, linear_form phi -> directions_of orders dirs ->
      mixed (rdomain r) dirs (fun xs => phi (f xs)) (fun xs => phi (g xs)).
Proof. exact c113_rational_derivative. Qed.
Print Assumptions C113_rational_derivative.
(** C113: vectors that cannot be allocated. *)
Theorem C113_limit : forall (T V : Type) (o : SOps T) (ov : VOps T V) (MAXB limit_w : nat) (s : spline V) (xs : list T),
  MAXB <= 68 -> wf s -> length xs = length (degrees s) -> Forall (fun p => p < MAXB) (degrees s) -> limit_w < n_coeffs (degrees s) ->
  BasisFunctions_64 MAXB limit_w s xs = Throw /\ ForwardEvaluate_64 MAXB limit_w s xs = Throw.
Proof. exact c113_limit. Qed.
Print Assumptions C113_limit.
Theorem C113_orders_limit : forall (T V : Type) (o : SOps T) (ov : VOps T V) (MAXB limit limit_w limit_r : nat) (r : rspline T V) (xs : list T) (orders : list nat),
  (Z.of_nat (n_coeffs orders) < 2 ^ 64)%Z ->
  (limit < n_coeffs orders \/ limit_w < n_coeffs orders -> R_EvaluateDerivative_64 MAXB limit limit_w r xs orders = Throw) /\
  (limit_r < n_coeffs orders \/ limit_w < n_coeffs orders -> R_BasisFunctionsDerivatives_64 MAXB limit_w limit_r r xs orders = Throw).
Proof. exact c113_orders_limit. Qed.
Print Assumptions C113_orders_limit.
(** C113: the number of derivatives wraps to zero or to one. *)
Theorem C113_orders_zero : forall (T V : Type) (o : SOps T) (ov : VOps T V) (MAXB limit limit_w limit_r : nat) (r : rspline T V) (xs : list T) (orders : list nat),
  w64 (n_coeffs orders) = 0 ->
  R_EvaluateDerivative_64 MAXB limit limit_w r xs orders = UB /\ R_BasisFunctionsDerivatives_64 MAXB limit_w limit_r r xs orders = UB.
Proof. exact c113_orders_zero. Qed.
Print Assumptions C113_orders_zero.
Theorem C113_orders_one : forall (T V : Type) (o : SOps T) (ov : VOps T V) (F : SField T) (M : VMod T V) (MAXB limit limit_w : nat) (r : rspline T V) (xs : list T) (orders : list nat),
  MAXB <= 68 -> rwf r -> rdomain r xs -> length orders = length (rdegrees r) -> Forall (fun p => p < MAXB) (rdegrees r) ->
  1 <= limit -> n_coeffs (rdegrees r) <= limit_w -> w64 (n_coeffs orders) = 1 ->
  exists v, R_Evaluate r xs = Ok v /\ R_EvaluateDerivative_64 MAXB limit limit_w r xs orders = Ok v.
Proof. exact c113_orders_one. Qed.
Print Assumptions C113_orders_one.
Theorem C113_orders_refuted : forall (T V : Type) (o : SOps T) (ov : VOps T V) (F : SField T) (M : VMod T V) (MAXB limit limit_w : nat) (c : V) (x y : T) (k : nat),
  1 <= MAXB -> MAXB <= 68 -> 1 <= limit -> 1 <= limit_w -> Z.of_nat k = 12297829382473034410%Z ->
  let u : spline V := mkSpline [0; 0] 1 [1; 1] [c] in
  let w : spline T := mkSpline [0; 0] 1 [1; 1] [s1] in
  exists r : rspline T V, R_mk u w = Ok r /\ rwf r /\ (forall xs : list T, length xs = 2 -> R_Evaluate r xs = Ok c) /\
    (Z.of_nat k < 2 ^ 64)%Z /\ R_EvaluateDerivative_64 MAXB limit limit_w r [x; y] [2; k] = Ok c.
Proof. exact c113_orders_refuted. Qed.
Print Assumptions C113_orders_refuted.
Example C113_case :
  let s : spline Qc := mkSpline [2; 1] 6 [1; 3] (map Q2Qc [0; 1; 4; 2; 3; 8]%Q) in
  let r : rspline Qc Qc := mkR s (mkSpline [2; 1] 6 [1; 3] (map Q2Qc [1; 1; 2; 1; 1; 2]%Q)) in
  let xs := [Q2Qc (1#2); Q2Qc (1#3)] in
  let outl (c : res (list Qc)) := match c with Ok l => Some (map this l) | _ => None end in
  let out (c : res Qc) := match c with Ok l => Some (this l) | _ => None end in
  wf s /\ rwf r /\ (Z.of_nat (n_coeffs (rdegrees r)) < 2 ^ 64)%Z /\
  outl (BasisFunctions_64 4 6 s xs) = Some [1#6; 1#3; 1#6; 1#12; 1#6; 1#12]%Q /\
  BasisFunctions_64 4 5 s xs = Throw /\
  out (ForwardEvaluate_64 4 6 s xs) = out (Evaluate_64 s xs) /\ out (Evaluate_64 s xs) = Some (7#3)%Q /\
  out (EvaluateDerivative_64 4 6 s xs [1; 1]) = Some 2%Q /\
  out (R_EvaluateDerivative_64 4 6 6 r xs [1; 0]) = out (R_EvaluateDerivative 4 r xs [1; 0]) /\
  out (R_EvaluateDerivative_64 4 6 6 r xs [1; 0]) = Some (56#25)%Q /\
  R_EvaluateDerivative_64 4 6 6 r xs [3; 1] = Throw /\ R_EvaluateDerivative_64 4 6 6 r xs [9; 0] = Throw /\
  R_EvaluateDerivative_64 3 9 9 r xs [3; 0] = AssertFail /\
  (exists l, R_BasisFunctionsDerivatives_64 4 6 6 r xs [1; 1] = Ok l /\ R_BasisFunctionsDerivatives 4 r xs [1; 1] = Ok l).
Proof.
  cbv zeta. split; [repeat split; discriminate|]. split; [repeat split; discriminate|]. split; [vm_compute; reflexivity|].
  do 10 (split; [vm_compute; reflexivity|]).
  eexists; split; vm_compute; reflexivity.
Qed.
