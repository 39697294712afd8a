(** Properties C34-C36 and C40-C44: values, basis functions, arithmetic, refinement and
    corners of rational splines. *)
From Coq Require Import Arith Lia List ZArith NArith Bool QArith Qcanon.
From Verif Require Import Prelude Scalar Spec SpecSpline Coord ModelBasis ModelSpline ModelPoint Examples ModelRational SpecRational
  ClaimsG.
Import ListNotations.
Local Open Scope nat_scope.

(** A rational surface of degrees (1, 1) in the plane and a scalar-valued one. *)
Definition qs (l : list Z) : list Qc := map (fun z => Q2Qc (inject_Z z)) l.
Definition ps (l : list (Z * Z)) : list (point Qc 2) :=
  map (fun '(a, b) => (Q2Qc (inject_Z a), (Q2Qc (inject_Z b), tt))) l.
Definition ex_r : rspline Qc (point Qc 2) :=
  mkR (mkSpline [1; 1] 4 [1; 2] (ps [(0, 0); (2, 0); (0, 1); (3, 3)]%Z))
      (mkSpline [1; 1] 4 [1; 2] (qs [1; 2; 1; 3]%Z)).
Definition ex_r2 : rspline Qc (point Qc 2) :=
  mkR (mkSpline [1; 0] 2 [1; 2] (ps [(1, 0); (1, 1)]%Z)) (mkSpline [1; 0] 2 [1; 2] (qs [1; 2]%Z)).
Definition ex_rq : rspline Qc Qc :=
  mkR (mkSpline [0; 1] 2 [1; 1] (qs [1; 4]%Z)) (mkSpline [0; 1] 2 [1; 1] (qs [1; 2]%Z)).

(** C34: Evaluate is the weighted quotient. *)
Theorem C34_quotient : forall (T V : Type) (o : SOps T) (ov : VOps T V) (F : SField T) (M : VMod T V)
  (deg : list nat) (pts : list V) (ws : list T),
  deg <> [] -> length pts = n_coeffs deg -> length ws = n_coeffs deg ->
  exists r, R_deg_points deg pts ws = Ok r /\ rwf r /\ rdegrees r = deg /\
    forall xs : list T, length xs = length deg ->
      let W := bezier deg xs (fun i => nth i ws s0) in
      (W <> s0 -> R_Evaluate r xs =
         Ok (vscale (sdiv s1 W) (bezier deg xs (fun i => vscale (nth i ws s0) (nth i pts v0))))) /\
      (W = s0 -> R_Evaluate r xs = NonFinite).
Proof. exact c34_quotient. Qed.
Print Assumptions C34_quotient.
Theorem C34_control_points : forall (T V : Type) (o : SOps T) (ov : VOps T V) (F : SField T) (M : VMod T V)
  (deg : list nat) (pts : list V) (ws : list T) (idx : list nat),
  deg <> [] -> length pts = n_coeffs deg -> length ws = n_coeffs deg -> valid_index deg idx ->
  exists r, R_deg_points deg pts ws = Ok r /\
    R_Weight r idx = Ok (nth (position deg idx) ws s0) /\
    R_WeightedControlPoint r idx =
      Ok (vscale (nth (position deg idx) ws s0) (nth (position deg idx) pts v0)) /\
    (nth (position deg idx) ws s0 <> s0 -> R_ControlPoint r idx = Ok (nth (position deg idx) pts v0)).
Proof. exact c34_control_points. Qed.
Print Assumptions C34_control_points.
Theorem C34_conversion : forall (T V : Type) (o : SOps T) (ov : VOps T V) (F : SField T) (M : VMod T V)
  (s : spline V), wf s ->
  exists r, R_of_spline s = Ok r /\ rwf r /\ rdegrees r = degrees s /\
    forall xs : list T, length xs = length (degrees s) -> R_Evaluate r xs = Evaluate s xs.
Proof. exact c34_conversion. Qed.
Print Assumptions C34_conversion.
Example C34_case : rwf ex_r /\
  R_deg_points [1; 1] (ps [(0, 0); (1, 0); (0, 1); (1, 1)]%Z) (qs [1; 2; 1; 3]%Z) = Ok ex_r /\
  rdomain ex_r [Q2Qc 1; Q2Qc (1 # 2)] /\
  R_Evaluate ex_r [Q2Qc 1; Q2Qc (1 # 2)] = Ok (Q2Qc 1, (Q2Qc (3 # 5), tt)) /\
  R_Evaluate ex_r [Q2Qc (-1); Q2Qc 0] = NonFinite.
Proof.
  split; [case_|]. split; [case_|]. split; [split; [reflexivity|vm_compute; congruence]|]. case_.
Qed.

(** C35: ForwardEvaluate does not divide by the weight function. *)
Theorem C35_forward_evaluate_refuted : exists (r : rspline Qc Qc) (xs : list Qc) (a b : Qc),
  rwf r /\ rdomain r xs /\ R_ForwardEvaluate 4 r xs = Ok a /\ R_Evaluate r xs = Ok b /\ a <> b.
Proof. exact c35_forward_evaluate_refuted. Qed.
Print Assumptions C35_forward_evaluate_refuted.
(** Missing from the full property: parameters where the weight function is not 1. *)
Theorem C35_forward_evaluate_partial : forall (T V : Type) (o : SOps T) (ov : VOps T V) (F : SField T) (M : VMod T V)
  (MAXB : nat) (r : rspline T V) (xs : list T),
  MAXB <= 68 -> rwf r -> rdomain r xs -> Forall (fun p => p < MAXB) (rdegrees r) ->
  exists a w, R_Evaluate r xs = Ok a /\ Evaluate (weight_function r) xs = Ok w /\
    R_ForwardEvaluate MAXB r xs = Ok (vscale w a) /\
    (w = s1 -> R_ForwardEvaluate MAXB r xs = R_Evaluate r xs).
Proof. exact c35_forward_evaluate_partial. Qed.
Print Assumptions C35_forward_evaluate_partial.
Example C35_case : Forall (fun p => p < 4) (rdegrees ex_r) /\
  R_ForwardEvaluate 4 ex_r [Q2Qc 1; Q2Qc (1 # 2)] = Ok (Q2Qc (5 # 2), (Q2Qc (3 # 2), tt)).
Proof. case_. Qed.

(** C36: rational basis functions. *)
Theorem C36_basis_functions : forall (T V : Type) (o : SOps T) (ov : VOps T V) (F : SField T) (M : VMod T V)
  (MAXB : nat) (r : rspline T V) (xs : list T) (pts : list V),
  MAXB <= 68 -> rwf r -> rdomain r xs -> Forall (fun p => p < MAXB) (rdegrees r) ->
  (forall i, i < n_coeffs (rdegrees r) -> nth i (control_points (weighted_spline r)) v0 =
     vscale (nth i (control_points (weight_function r)) s0) (nth i pts v0)) ->
  exists bs : list T, R_BasisFunctions MAXB r xs = Ok bs /\ length bs = n_coeffs (rdegrees r) /\
    ssum (length bs) (fun i => nth i bs s0) = s1 /\
    R_Evaluate r xs = Ok (vsum (length bs) (fun i => vscale (nth i bs s0) (nth i pts v0))).
Proof. exact c36_basis_functions. Qed.
Print Assumptions C36_basis_functions.
Theorem C36_sum : forall (T V : Type) (o : SOps T) (ov : VOps T V) (F : SField T) (M : VMod T V)
  (MAXB : nat) (r : rspline T V) (xs : list T),
  MAXB <= 68 -> rwf r -> rdomain r xs -> Forall (fun p => p < MAXB) (rdegrees r) ->
  exists bs : list T, R_BasisFunctions MAXB r xs = Ok bs /\ length bs = n_coeffs (rdegrees r) /\
    ssum (length bs) (fun i => nth i bs s0) = s1.
Proof. exact c36_sum. Qed.
Print Assumptions C36_sum.
Theorem C36_basis_functions_nonneg : forall (T V : Type) (o : SOps T) (ov : VOps T V) (F : SField T) (M : VMod T V)
  (O : SOrder T) (MAXB : nat) (r : rspline T V) (xs : list T),
  MAXB <= 68 -> rwf r -> length xs = length (rdegrees r) -> Forall in_unit xs ->
  Forall (fun w => slt s0 w) (control_points (weight_function r)) ->
  Forall (fun p => p < MAXB) (rdegrees r) ->
  rdomain r xs /\
  exists bs : list T, R_BasisFunctions MAXB r xs = Ok bs /\ length bs = n_coeffs (rdegrees r) /\
    Forall (fun b => sle s0 b) bs.
Proof. exact c36_basis_functions_nonneg. Qed.
Print Assumptions C36_basis_functions_nonneg.
Example C36_case : Forall (fun w => slt (Q2Qc 0) w) (control_points (weight_function ex_r)) /\
  R_BasisFunctions 4 ex_r [Q2Qc 1; Q2Qc (1 # 2)] = Ok [Q2Qc 0; Q2Qc (2 # 5); Q2Qc 0; Q2Qc (3 # 5)] /\
  (forall i, i < n_coeffs (rdegrees ex_r) -> nth i (control_points (weighted_spline ex_r)) v0 =
     vscale (nth i (control_points (weight_function ex_r)) s0)
       (nth i (ps [(0, 0); (1, 0); (0, 1); (1, 1)]%Z) v0)).
Proof.
  split; [repeat constructor|]. split; [case_|].
  intros [|[|[|[|i]]]] Hi; [qc_eq|qc_eq|qc_eq|qc_eq|]. vm_compute in Hi. lia.
Qed.

(** C40: sums, differences and products are pointwise. *)
Theorem C40_add_sub : forall (T V : Type) (o : SOps T) (ov : VOps T V) (F : SField T) (M : VMod T V)
  (MAXB fuel : nat) (r s : rspline T V),
  MAXB <= 68 -> rwf r -> rwf s -> length (rdegrees s) = length (rdegrees r) ->
  Forall (fun p => p < MAXB) (map2 Nat.add (rdegrees r) (rdegrees s)) ->
  (Z.of_nat (n_coeffs (map2 Nat.add (rdegrees r) (rdegrees s))) < 2 ^ 31)%Z ->
  list_max (map2 Nat.add (rdegrees r) (rdegrees s)) + 1 < fuel ->
  (exists c, R_add MAXB fuel r s = Ok c /\ R_add_assign MAXB fuel r s = Ok c /\ rwf c /\
     forall xs : list T, rdomain r xs -> rdomain s xs ->
       exists a b, R_Evaluate r xs = Ok a /\ R_Evaluate s xs = Ok b /\ R_Evaluate c xs = Ok (vadd a b)) /\
  (exists c, R_sub MAXB fuel r s = Ok c /\ R_sub_assign MAXB fuel r s = Ok c /\ rwf c /\
     forall xs : list T, rdomain r xs -> rdomain s xs ->
       exists a b, R_Evaluate r xs = Ok a /\ R_Evaluate s xs = Ok b /\ R_Evaluate c xs = Ok (vsub a b)).
Proof. exact c40_add_sub. Qed.
Print Assumptions C40_add_sub.
Theorem C40_product_scalar_scalar : forall (T : Type) (o : SOps T) (F : SField T) (MAXB : nat) (r s : rspline T T),
  MAXB <= 68 -> rwf r -> rwf s -> length (rdegrees s) = length (rdegrees r) ->
  Forall (fun p => p < MAXB) (map2 Nat.add (rdegrees r) (rdegrees s)) ->
  exists c : rspline T T, R_mul MAXB (fun a b => smul a b) r s = Ok c /\ rwf c /\
    rdegrees c = map2 Nat.add (rdegrees r) (rdegrees s) /\
    forall xs : list T, rdomain r xs -> rdomain s xs ->
      exists a b, R_Evaluate r xs = Ok a /\ R_Evaluate s xs = Ok b /\ R_Evaluate c xs = Ok (smul a b).
Proof. exact c40_product_scalar_scalar. Qed.
Print Assumptions C40_product_scalar_scalar.
Theorem C40_product_point_scalar : forall (T V : Type) (o : SOps T) (ov : VOps T V) (F : SField T) (M : VMod T V)
  (MAXB : nat) (r : rspline T V) (s : rspline T T),
  MAXB <= 68 -> rwf r -> rwf s -> length (rdegrees s) = length (rdegrees r) ->
  Forall (fun p => p < MAXB) (map2 Nat.add (rdegrees r) (rdegrees s)) ->
  exists c : rspline T V, R_mul MAXB (fun p k => vscale k p) r s = Ok c /\ rwf c /\
    rdegrees c = map2 Nat.add (rdegrees r) (rdegrees s) /\
    forall xs : list T, rdomain r xs -> rdomain s xs ->
      exists p k, R_Evaluate r xs = Ok p /\ R_Evaluate s xs = Ok k /\ R_Evaluate c xs = Ok (vscale k p).
Proof. exact c40_product_point_scalar. Qed.
Print Assumptions C40_product_point_scalar.
Theorem C40_product_scalar_point : forall (T V : Type) (o : SOps T) (ov : VOps T V) (F : SField T) (M : VMod T V)
  (MAXB : nat) (r : rspline T T) (s : rspline T V),
  MAXB <= 68 -> rwf r -> rwf s -> length (rdegrees s) = length (rdegrees r) ->
  Forall (fun p => p < MAXB) (map2 Nat.add (rdegrees r) (rdegrees s)) ->
  exists c : rspline T V, R_mul MAXB (fun k p => vscale k p) r s = Ok c /\ rwf c /\
    rdegrees c = map2 Nat.add (rdegrees r) (rdegrees s) /\
    forall xs : list T, rdomain r xs -> rdomain s xs ->
      exists k p, R_Evaluate r xs = Ok k /\ R_Evaluate s xs = Ok p /\ R_Evaluate c xs = Ok (vscale k p).
Proof. exact c40_product_scalar_point. Qed.
Print Assumptions C40_product_scalar_point.
Theorem C40_product_dot : forall (T : Type) (o : SOps T) (F : SField T) (MAXB d : nat) (r s : rspline T (point T d)),
  MAXB <= 68 -> rwf r -> rwf s -> length (rdegrees s) = length (rdegrees r) ->
  Forall (fun p => p < MAXB) (map2 Nat.add (rdegrees r) (rdegrees s)) ->
  exists c : rspline T T,
    R_mul MAXB (fun p q => ssum d (fun k => smul (coord d p k) (coord d q k))) r s = Ok c /\ rwf c /\
    rdegrees c = map2 Nat.add (rdegrees r) (rdegrees s) /\
    forall xs : list T, rdomain r xs -> rdomain s xs ->
      exists p q k, R_Evaluate r xs = Ok p /\ R_Evaluate s xs = Ok q /\ point_dot p q = Ok k /\ R_Evaluate c xs = Ok k.
Proof. exact c40_product_dot. Qed.
Print Assumptions C40_product_dot.
Example C40_case : rwf ex_r2 /\ rwf ex_rq /\ length (rdegrees ex_r2) = length (rdegrees ex_rq) /\
  Forall (fun p => p < 4) (map2 Nat.add (rdegrees ex_r2) (rdegrees ex_r2)) /\
  (Z.of_nat (n_coeffs (map2 Nat.add (rdegrees ex_r2) (rdegrees ex_r2))) < 2 ^ 31)%Z /\
  (exists c, R_sub 4 4 ex_r2 ex_r2 = Ok c /\ R_Evaluate c [Q2Qc 2; Q2Qc 0] = Ok v0) /\
  (exists c, R_mul 4 (fun p k => vscale k p) ex_r2 ex_rq = Ok c /\
     R_Evaluate c [Q2Qc 1; Q2Qc 1] = Ok (Q2Qc 1, (Q2Qc 1, tt))).
Proof.
  do 5 (split; [case_|]).
  split; (eexists; split; [vm_compute; reflexivity|case_]).
Qed.

(** C41: scaling and shifting. *)
Theorem C41_pointwise : forall (T V : Type) (o : SOps T) (ov : VOps T V) (F : SField T) (M : VMod T V)
  (r : rspline T V) (c : T) (p : V), rwf r ->
  racts_pointwise r (R_scale_assign r c) (fun a => vscale c a) /\
  racts_pointwise r (R_scale r c) (fun a => vscale c a) /\
  racts_pointwise r (R_shift_assign r p) (fun a => vadd a p) /\
  racts_pointwise r (R_shift r p) (fun a => vadd a p) /\
  racts_pointwise r (R_unshift_assign r p) (fun a => vsub a p) /\
  racts_pointwise r (R_unshift r p) (fun a => vsub a p) /\
  racts_pointwise r (R_neg r) (fun a => vopp a).
Proof. exact c41_pointwise. Qed.
Print Assumptions C41_pointwise.
Example C41_case : exists r, R_shift_assign ex_r (Q2Qc 1, (Q2Qc 2, tt)) = Ok r /\
  R_Evaluate r [Q2Qc 1; Q2Qc (1 # 2)] = Ok (Q2Qc 2, (Q2Qc (13 # 5), tt)).
Proof. eexists; split; [vm_compute; reflexivity|case_]. Qed.

(** C42: elevation and splitting. *)
Theorem C42_order_elevate : forall (T V : Type) (o : SOps T) (ov : VOps T V) (F : SField T) (M : VMod T V)
  (r : rspline T V) (k : nat), rwf r -> k < length (rdegrees r) ->
  (Z.of_nat (n_coeffs (upd_at k S (rdegrees r))) < 2 ^ 31)%Z ->
  exists r', R_OrderElevate r k = Ok r' /\ rwf r' /\ rdegrees r' = upd_at k S (rdegrees r) /\
    forall xs : list T, length xs = length (rdegrees r) -> R_Evaluate r' xs = R_Evaluate r xs.
Proof. exact c42_order_elevate. Qed.
Print Assumptions C42_order_elevate.
Theorem C42_split : forall (T V : Type) (o : SOps T) (ov : VOps T V) (F : SField T) (M : VMod T V) (O : SOrder T)
  (r : rspline T V) (x : T) (k : nat), rwf r -> k < length (rdegrees r) -> slt s0 x -> slt x s1 ->
  exists a b, R_SplitAtPosition r x k = Ok [a; b] /\ rwf a /\ rwf b /\
    rdegrees a = rdegrees r /\ rdegrees b = rdegrees r /\
    forall xs : list T, length xs = length (rdegrees r) ->
      R_Evaluate a xs = R_Evaluate r (upd_list xs k (smul x (nth k xs s0))) /\
      R_Evaluate b xs = R_Evaluate r (upd_list xs k (sadd x (smul (ssub s1 x) (nth k xs s0)))).
Proof. exact c42_split. Qed.
Print Assumptions C42_split.
Theorem C42_split_range : forall (T V : Type) (o : SOps T) (ov : VOps T V) (r : rspline T V) (x : T) (k : nat),
  ~ (slt s0 x /\ slt x s1) -> R_SplitAtPosition r x k = Throw.
Proof. exact c42_split_range. Qed.
Print Assumptions C42_split_range.
Theorem C42_multi_split : forall (T V : Type) (o : SOps T) (ov : VOps T V) (F : SField T) (M : VMod T V)
  (O : SOrder T) (r : rspline T V) (planes : list T) (k : nat),
  rwf r -> k < length (rdegrees r) ->
  let bounds := s0 :: planes ++ [s1] in
  (forall i, S i < length bounds -> slt (nth i bounds s0) (nth (S i) bounds s0)) ->
  exists parts, R_SplitAtPositions r planes k = Ok parts /\ length parts = S (length planes) /\
    forall i, i <= length planes -> exists b, nth_error parts i = Some b /\ rwf b /\ rdegrees b = rdegrees r /\
      forall xs : list T, length xs = length (rdegrees r) ->
        R_Evaluate b xs = R_Evaluate r (upd_list xs k
          (sadd (nth i bounds s0) (smul (ssub (nth (S i) bounds s0) (nth i bounds s0)) (nth k xs s0)))).
Proof. exact c42_multi_split. Qed.
Print Assumptions C42_multi_split.
Theorem C42_multi_split_bad : forall (T V : Type) (o : SOps T) (ov : VOps T V) (F : SField T) (M : VMod T V)
  (O : SOrder T) (r : rspline T V) (planes : list T) (k : nat),
  rwf r -> k < length (rdegrees r) -> planes <> [] ->
  let bounds := s0 :: planes ++ [s1] in
  ~ (forall i, S i < length bounds -> slt (nth i bounds s0) (nth (S i) bounds s0)) ->
  R_SplitAtPositions r planes k = Throw.
Proof. exact c42_multi_split_bad. Qed.
Print Assumptions C42_multi_split_bad.
Example C42_case : 1 < length (rdegrees ex_r) /\
  (Z.of_nat (n_coeffs (upd_at 1 S (rdegrees ex_r))) < 2 ^ 31)%Z /\
  (exists r, R_OrderElevate ex_r 1 = Ok r /\ rdegrees r = [1; 2] /\
     R_Evaluate r [Q2Qc 1; Q2Qc (1 # 2)] = Ok (Q2Qc 1, (Q2Qc (3 # 5), tt))) /\
  (exists a b, R_SplitAtPosition ex_r (Q2Qc (1 # 2)) 1 = Ok [a; b] /\
     R_Evaluate b [Q2Qc 1; Q2Qc 0] = Ok (Q2Qc 1, (Q2Qc (3 # 5), tt))) /\
  R_SplitAtPositions ex_r [Q2Qc (1 # 2); Q2Qc (1 # 2)] 1 = Throw.
Proof.
  do 2 (split; [case_|]). split; [eexists; split; [vm_compute; reflexivity|case_]|].
  split; [do 2 eexists; split; [vm_compute; reflexivity|case_]|]. vm_compute. reflexivity.
Qed.

(** C43: the variadic ControlPoint reads the wrong entry. *)
Theorem C43_variadic_refuted : exists (r : rspline Qc Qc) (idx : list nat) (a b : Qc),
  rwf r /\ valid_index (rdegrees r) idx /\
  R_ControlPoint_variadic r idx = Ok a /\ R_ControlPoint r idx = Ok b /\ a <> b.
Proof. exact c43_variadic_refuted. Qed.
Print Assumptions C43_variadic_refuted.
(** Missing from the full property: more than one parametric dimension. *)
Theorem C43_variadic_partial : forall (T V : Type) (o : SOps T) (ov : VOps T V) (r : rspline T V) (i : nat),
  R_ControlPoint_variadic r [i] = R_ControlPoint r [i].
Proof. exact c43_variadic_partial. Qed.
Print Assumptions C43_variadic_partial.
Example C43_case : R_ControlPoint_variadic ex_fw [1] = Ok (Q2Qc (1 # 2)).
Proof. case_. Qed.

(** C44: corners. *)
Theorem C44_bounds : forall (T : Type) (o : SOps T) (F : SField T) (O : SOrder T) (d : nat)
  (r : rspline T (point T d)) (xs : list T),
  rwf r -> length xs = length (rdegrees r) -> Forall in_unit xs ->
  Forall (fun w => slt s0 w) (control_points (weight_function r)) ->
  exists p lo hi, R_Evaluate r xs = Ok p /\ R_MinimumCorner r = Ok lo /\ R_MaximumCorner r = Ok hi /\
    forall k, k < d -> sle (coord d lo k) (coord d p k) /\ sle (coord d p k) (coord d hi k).
Proof. exact c44_bounds. Qed.
Print Assumptions C44_bounds.
Theorem C44_corners : forall (T : Type) (o : SOps T) (F : SField T) (O : SOrder T) (d : nat)
  (r : rspline T (point T d)), rwf r ->
  Forall (fun w => w <> s0) (control_points (weight_function r)) ->
  exists lo hi, R_MinimumCorner r = Ok lo /\ R_MaximumCorner r = Ok hi /\
    forall k, k < d ->
      (forall idx, valid_index (rdegrees r) idx -> exists p, R_ControlPoint r idx = Ok p /\
         sle (coord d lo k) (coord d p k) /\ sle (coord d p k) (coord d hi k)) /\
      (exists idx p, valid_index (rdegrees r) idx /\ R_ControlPoint r idx = Ok p /\ coord d p k = coord d lo k) /\
      (exists idx p, valid_index (rdegrees r) idx /\ R_ControlPoint r idx = Ok p /\ coord d p k = coord d hi k).
Proof. exact c44_corners. Qed.
Print Assumptions C44_corners.
Theorem C44_fits_exact : forall (T : Type) (o : SOps T) (F : SField T) (O : SOrder T) (d : nat)
  (r : rspline T (point T d)), rwf r ->
  Forall (fun w => w <> s0) (control_points (weight_function r)) ->
  exists b, R_FitsIntoUnitCube r = Ok b /\ (b = true <-> in_unit_cube r).
Proof. exact c44_fits_exact. Qed.
Print Assumptions C44_fits_exact.
Theorem C44_empty : forall (T : Type) (o : SOps T) (d : nat) (r : rspline T (point T d)),
  number_of_control_points (weighted_spline r) = 0 ->
  R_MinimumCorner r = Throw /\ R_MaximumCorner r = Throw /\ R_FitsIntoUnitCube r = Throw.
Proof. exact c44_empty. Qed.
Print Assumptions C44_empty.
Example C44_case : Forall (fun w => w <> Q2Qc 0) (control_points (weight_function ex_r)) /\
  R_MaximumCorner ex_r = Ok (Q2Qc 1, (Q2Qc 1, tt)) /\ R_MinimumCorner ex_r = Ok (Q2Qc 0, (Q2Qc 0, tt)) /\
  R_FitsIntoUnitCube ex_r = Ok true.
Proof. split; [repeat (constructor; [vm_compute; congruence|]); constructor|]. case_. Qed.
