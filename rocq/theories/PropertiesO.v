(** Properties C62-C64: scalar-valued splines. *)
From Coq Require Import Arith Lia List ZArith NArith Bool QArith Qcanon.
From Verif Require Import Prelude Scalar Spec SpecSpline Coord ModelBasis ModelSpline Examples ModelRational SpecRational
  ModelScalar ClaimsO.
Import ListNotations.
Local Open Scope nat_scope.

(** A scalar-valued surface with values from -2 to 4, a constant function, two functions with
    values in the unit interval (polynomial and rational) and outer functions of degree 1. *)
Definition ex_s : spline Qc :=
  mkSpline [1; 1] 4 [1; 2] (map (fun z => Q2Qc (inject_Z z)) [1; -2; 3; 4]%Z).
Definition ex_sflat : spline Qc := mkSpline [1] 2 [1] [Q2Qc 3; Q2Qc 3].
Definition ex_si : spline Qc := mkSpline [1] 2 [1] [Q2Qc 1; Q2Qc (1 # 2)].
Definition ex_sri : rspline Qc Qc :=
  mkR (mkSpline [1] 2 [1] [Q2Qc 0; Q2Qc 2]) (mkSpline [1] 2 [1] [Q2Qc 1; Q2Qc 2]).
Definition ex_so : spline Qc := mkSpline [2] 3 [1] [Q2Qc 1; Q2Qc (-1); Q2Qc 5].
Definition ex_sro : rspline Qc Qc :=
  mkR (mkSpline [1] 2 [1] [Q2Qc 1; Q2Qc 9]) (mkSpline [1] 2 [1] [Q2Qc 1; Q2Qc 3]).

(** C62: coordinates, corners and the unit interval of polynomial scalar-valued splines. *)
Theorem C62_extract : forall (T : Type) (s : spline T) (k : nat),
  ExtractDimension_s s 0 = Ok s /\ (0 < k -> ExtractDimension_s s k = Throw).
Proof. exact c62_extract. Qed.
Print Assumptions C62_extract.
Theorem C62_bounding_box : forall (T : Type) (o : SOps T) (F : SField T) (O : SOrder T)
  (s : spline T) (xs : list T),
  wf s -> length xs = length (degrees s) -> Forall in_unit xs ->
  exists p lo hi, Evaluate s xs = Ok p /\ MinimumCorner_s s = Ok lo /\ MaximumCorner_s s = Ok hi /\
    sle lo p /\ sle p hi.
Proof. exact c62_bounding_box. Qed.
Print Assumptions C62_bounding_box.
Theorem C62_corners : forall (T : Type) (o : SOps T) (F : SField T) (O : SOrder T) (s : spline T), wf s ->
  exists lo hi, MinimumCorner_s s = Ok lo /\ MaximumCorner_s s = Ok hi /\
    (forall p, In p (control_points s) -> sle lo p /\ sle p hi) /\
    In lo (control_points s) /\ In hi (control_points s).
Proof. exact c62_corners. Qed.
Print Assumptions C62_corners.
Theorem C62_fits_exact : forall (T : Type) (o : SOps T) (F : SField T) (O : SOrder T) (s : spline T), wf s ->
  exists b, FitsIntoUnitCube_s s = Ok b /\ (b = true <-> Forall in_unit (control_points s)).
Proof. exact c62_fits_exact. Qed.
Print Assumptions C62_fits_exact.
Theorem C62_fit : forall (T : Type) (o : SOps T) (F : SField T) (O : SOrder T) (s : spline T), wf s ->
  (exists p q, In p (control_points s) /\ In q (control_points s) /\ p <> q) ->
  exists r lo hi, FitIntoUnitCube_s s = Ok r /\ wf r /\ degrees r = degrees s /\
    FitsIntoUnitCube_s r = Ok true /\ slt lo hi /\
    (forall i, i < length (control_points s) ->
       nth i (control_points r) s0 = sdiv (ssub (nth i (control_points s) s0) lo) (ssub hi lo) /\
       in_unit (nth i (control_points r) s0)) /\
    In s0 (control_points r) /\ In s1 (control_points r).
Proof. exact c62_fit. Qed.
Print Assumptions C62_fit.
Theorem C62_flat : forall (T : Type) (o : SOps T) (F : SField T) (O : SOrder T) (s : spline T), wf s ->
  (forall p q, In p (control_points s) -> In q (control_points s) -> p = q) ->
  FitIntoUnitCube_s s = NonFinite.
Proof. exact c62_flat. Qed.
Print Assumptions C62_flat.
Theorem C62_empty : forall (T : Type) (o : SOps T) (s : spline T), number_of_control_points s = 0 ->
  MinimumCorner_s s = Throw /\ MaximumCorner_s s = Throw /\ FitsIntoUnitCube_s s = Throw /\ FitIntoUnitCube_s s = Throw.
Proof. exact c62_empty. Qed.
Print Assumptions C62_empty.
Example C62_case : wf ex_s /\ wf ex_sflat /\ wf ex_si /\ Forall in_unit [Q2Qc (1 # 3); Q2Qc 1] /\
  MinimumCorner_s ex_s = Ok (Q2Qc (-2)) /\ MaximumCorner_s ex_s = Ok (Q2Qc 4) /\
  FitsIntoUnitCube_s ex_s = Ok false /\ FitsIntoUnitCube_s ex_si = Ok true /\
  FitIntoUnitCube_s ex_s = Ok (mkSpline [1; 1] 4 [1; 2] [Q2Qc (1 # 2); Q2Qc 0; Q2Qc (5 # 6); Q2Qc 1]) /\
  FitIntoUnitCube_s ex_sflat = NonFinite.
Proof. case_. Qed.

(** C63: the same for rational scalar-valued splines. *)
Theorem C63_bounds : forall (T : Type) (o : SOps T) (F : SField T) (O : SOrder T) (r : rspline T T) (xs : list T),
  rwf r -> length xs = length (rdegrees r) -> Forall in_unit xs ->
  Forall (fun w => slt s0 w) (control_points (weight_function r)) ->
  exists p lo hi, R_Evaluate r xs = Ok p /\ R_MinimumCorner_s r = Ok lo /\ R_MaximumCorner_s r = Ok hi /\
    sle lo p /\ sle p hi.
Proof. exact c63_bounds. Qed.
Print Assumptions C63_bounds.
Theorem C63_corners : forall (T : Type) (o : SOps T) (F : SField T) (O : SOrder T) (r : rspline T T), rwf r ->
  Forall (fun w => w <> s0) (control_points (weight_function r)) ->
  exists lo hi, R_MinimumCorner_s r = Ok lo /\ R_MaximumCorner_s r = Ok hi /\
    (forall idx, valid_index (rdegrees r) idx -> exists p, R_ControlPoint r idx = Ok p /\ sle lo p /\ sle p hi) /\
    (exists idx, valid_index (rdegrees r) idx /\ R_ControlPoint r idx = Ok lo) /\
    (exists idx, valid_index (rdegrees r) idx /\ R_ControlPoint r idx = Ok hi).
Proof. exact c63_corners. Qed.
Print Assumptions C63_corners.
Theorem C63_fits_exact : forall (T : Type) (o : SOps T) (F : SField T) (O : SOrder T) (r : rspline T T), rwf r ->
  Forall (fun w => w <> s0) (control_points (weight_function r)) ->
  exists b, R_FitsIntoUnitCube_s r = Ok b /\ (b = true <-> in_unit_interval r).
Proof. exact c63_fits_exact. Qed.
Print Assumptions C63_fits_exact.
Theorem C63_empty : forall (T : Type) (o : SOps T) (r : rspline T T),
  number_of_control_points (weighted_spline r) = 0 ->
  R_MinimumCorner_s r = Throw /\ R_MaximumCorner_s r = Throw /\ R_FitsIntoUnitCube_s r = Throw.
Proof. exact c63_empty. Qed.
Print Assumptions C63_empty.
Example C63_case : rwf ex_sri /\ Forall (fun w => w <> Q2Qc 0) (control_points (weight_function ex_sri)) /\
  R_MinimumCorner_s ex_sri = Ok (Q2Qc 0) /\ R_MaximumCorner_s ex_sri = Ok (Q2Qc 1) /\
  R_FitsIntoUnitCube_s ex_sri = Ok true /\ R_FitsIntoUnitCube_s ex_sro = Ok false.
Proof.
  split; [case_|]. split; [repeat (constructor; [vm_compute; congruence|]); constructor|]. case_.
Qed.

(** C64: composition with a scalar-valued inner spline. *)
Theorem C64_compose : forall (T V : Type) (o : SOps T) (ov : VOps T V) (F : SField T) (M : VMod T V) (O : SOrder T)
  (MAXB : nat) (outer : spline V) (inner : spline T),
  MAXB <= 68 -> wf outer -> length (degrees outer) = 1 -> wf inner ->
  Forall in_unit (control_points inner) ->
  Forall (fun p => list_sum (degrees outer) * p < MAXB) (degrees inner) ->
  Forall (fun p => p < MAXB) (degrees outer) ->
  exists r, Compose_s MAXB outer inner = Ok r /\ wf r /\
    degrees r = map (fun p => list_sum (degrees outer) * p) (degrees inner) /\
    forall xs : list T, length xs = length (degrees inner) ->
      exists x v, Evaluate inner xs = Ok x /\ Evaluate outer [x] = Ok v /\ Evaluate r xs = Ok v.
Proof. exact c64_compose. Qed.
Print Assumptions C64_compose.
Theorem C64_outside : forall (T V : Type) (o : SOps T) (ov : VOps T V) (F : SField T) (M : VMod T V)
  (O : SOrder T) (MAXB fuel : nat) (po : spline V) (ro : rspline T V) (pinner : spline T) (rinner : rspline T T),
  (wf pinner -> ~ Forall in_unit (control_points pinner) ->
     Compose_s MAXB po pinner = Throw /\ ComposeSensitivity_s MAXB po pinner = Throw /\
     Compose_RP_s MAXB ro pinner = Throw /\ ComposeSensitivity_RP_s MAXB ro pinner = Throw) /\
  (rwf rinner -> Forall (fun w => w <> s0) (control_points (weight_function rinner)) -> ~ in_unit_interval rinner ->
     Compose_PR_s MAXB fuel po rinner = Throw /\ ComposeSensitivity_PR_s MAXB fuel po rinner = Throw).
Proof. exact c64_outside. Qed.
Print Assumptions C64_outside.
Theorem C64_sensitivity : forall (T V : Type) (o : SOps T) (ov : VOps T V) (F : SField T) (M : VMod T V)
  (O : SOrder T) (MAXB : nat) (outer : spline V) (inner : spline T),
  MAXB <= 68 -> wf outer -> length (degrees outer) = 1 -> wf inner ->
  Forall in_unit (control_points inner) ->
  Forall (fun p => list_sum (degrees outer) * p < MAXB) (degrees inner) ->
  Forall (fun p => p < MAXB) (degrees outer) ->
  exists ts r, ComposeSensitivity_s MAXB outer inner = Ok ts /\ length ts = length (control_points outer) /\
    Compose_s MAXB outer inner = Ok r /\
    (forall i P (delta : V), nth_error (control_points outer) i = Some P ->
       exists t r', nth_error ts i = Some t /\ wf t /\
         Compose_s MAXB (with_cps outer (upd_list (control_points outer) i (vadd P delta))) inner = Ok r' /\
         forall xs : list T, length xs = length (degrees inner) ->
           exists a c, Evaluate r xs = Ok a /\ Evaluate t xs = Ok c /\
             Evaluate r' xs = Ok (vadd a (vscale c delta))) /\
    (forall xs : list T, length xs = length (degrees inner) ->
       exists cs : list T, mapM (fun t => Evaluate t xs) ts = Ok cs /\
         Evaluate r xs = Ok (vsum (length ts) (fun i => vscale (nth i cs s0) (nth i (control_points outer) v0)))).
Proof. exact c64_sensitivity. Qed.
Print Assumptions C64_sensitivity.
Theorem C64_polynomial_of_rational : forall (T V : Type) (o : SOps T) (ov : VOps T V) (F : SField T) (M : VMod T V)
  (O : SOrder T) (MAXB fuel : nat) (outer : spline V) (inner : rspline T T),
  MAXB <= 68 -> wf outer -> length (degrees outer) = 1 -> rwf inner -> in_unit_interval inner ->
  Forall (fun p => list_sum (degrees outer) * p < MAXB) (rdegrees inner) ->
  Forall (fun p => p < MAXB) (degrees outer) ->
  (Z.of_nat (n_coeffs (rdegrees inner)) < 2 ^ 31)%Z -> list_max (rdegrees inner) + 1 < fuel ->
  exists r, Compose_PR_s MAXB fuel outer inner = Ok r /\ rwf r /\
    rdegrees r = map (fun p => list_sum (degrees outer) * p) (rdegrees inner) /\
    forall xs : list T, rdomain inner xs ->
      exists x v, R_Evaluate inner xs = Ok x /\ Evaluate outer [x] = Ok v /\ R_Evaluate r xs = Ok v.
Proof. exact c64_polynomial_of_rational. Qed.
Print Assumptions C64_polynomial_of_rational.
Theorem C64_rational_of_polynomial : forall (T V : Type) (o : SOps T) (ov : VOps T V) (F : SField T) (M : VMod T V)
  (O : SOrder T) (MAXB : nat) (outer : rspline T V) (inner : spline T),
  MAXB <= 68 -> rwf outer -> length (rdegrees outer) = 1 -> wf inner ->
  Forall in_unit (control_points inner) ->
  Forall (fun p => list_sum (rdegrees outer) * p < MAXB) (degrees inner) ->
  Forall (fun p => p < MAXB) (rdegrees outer) ->
  exists r, Compose_RP_s MAXB outer inner = Ok r /\ rwf r /\
    rdegrees r = map (fun p => list_sum (rdegrees outer) * p) (degrees inner) /\
    forall xs : list T, length xs = length (degrees inner) ->
      exists x, Evaluate inner xs = Ok x /\ R_Evaluate r xs = R_Evaluate outer [x] /\
        (rdomain outer [x] -> is_ok (R_Evaluate r xs)).
Proof. exact c64_rational_of_polynomial. Qed.
Print Assumptions C64_rational_of_polynomial.
Theorem C64_rational_of_rational : forall (T V : Type) (o : SOps T) (ov : VOps T V) (F : SField T) (M : VMod T V)
  (MAXB fuel : nat) (outer : rspline T V) (inner : rspline T T),
  MAXB <= 68 -> rwf outer -> length (rdegrees outer) = 1 -> rwf inner ->
  Forall (fun p => list_sum (rdegrees outer) * p < MAXB) (rdegrees inner) ->
  Forall (fun p => p < MAXB) (rdegrees outer) ->
  (Z.of_nat (n_coeffs (rdegrees inner)) < 2 ^ 31)%Z -> list_max (rdegrees inner) + 1 < fuel ->
  exists r, Compose_RR_s MAXB fuel outer inner = Ok r /\ rwf r /\
    rdegrees r = map (fun p => list_sum (rdegrees outer) * p) (rdegrees inner) /\
    forall xs : list T, rdomain inner xs ->
      exists x, R_Evaluate inner xs = Ok x /\ R_Evaluate r xs = R_Evaluate outer [x] /\
        (rdomain outer [x] -> is_ok (R_Evaluate r xs)).
Proof. exact c64_rational_of_rational. Qed.
Print Assumptions C64_rational_of_rational.
Theorem C64_sensitivity_polynomial_of_rational : forall (T V : Type) (o : SOps T) (ov : VOps T V) (F : SField T)
  (M : VMod T V) (O : SOrder T) (MAXB fuel : nat) (outer : spline V) (inner : rspline T T),
  MAXB <= 68 -> wf outer -> length (degrees outer) = 1 -> rwf inner -> in_unit_interval inner ->
  Forall (fun p => list_sum (degrees outer) * p < MAXB) (rdegrees inner) ->
  Forall (fun p => p < MAXB) (degrees outer) ->
  (Z.of_nat (n_coeffs (rdegrees inner)) < 2 ^ 31)%Z -> list_max (rdegrees inner) + 1 < fuel ->
  exists ts r, ComposeSensitivity_PR_s MAXB fuel outer inner = Ok ts /\ length ts = length (control_points outer) /\
    Compose_PR_s MAXB fuel outer inner = Ok r /\
    (forall i P (delta : V), nth_error (control_points outer) i = Some P ->
       exists t r', nth_error ts i = Some t /\ rwf t /\
         Compose_PR_s MAXB fuel (with_cps outer (upd_list (control_points outer) i (vadd P delta))) inner = Ok r' /\
         forall xs : list T, rdomain inner xs ->
           exists a c, R_Evaluate r xs = Ok a /\ R_Evaluate t xs = Ok c /\
             R_Evaluate r' xs = Ok (vadd a (vscale c delta))) /\
    (forall xs : list T, rdomain inner xs ->
       exists cs : list T, mapM (fun t => R_Evaluate t xs) ts = Ok cs /\
         R_Evaluate r xs = Ok (vsum (length ts) (fun i => vscale (nth i cs s0) (nth i (control_points outer) v0)))).
Proof. exact c64_sensitivity_polynomial_of_rational. Qed.
Print Assumptions C64_sensitivity_polynomial_of_rational.
Theorem C64_sensitivity_rational_of_polynomial : forall (T V : Type) (o : SOps T) (ov : VOps T V) (F : SField T)
  (M : VMod T V) (O : SOrder T) (MAXB : nat) (outer : rspline T V) (inner : spline T),
  MAXB <= 68 -> rwf outer -> length (rdegrees outer) = 1 -> wf inner ->
  Forall in_unit (control_points inner) ->
  Forall (fun p => list_sum (rdegrees outer) * p < MAXB) (degrees inner) ->
  Forall (fun p => p < MAXB) (rdegrees outer) ->
  exists ts r, ComposeSensitivity_RP_s MAXB outer inner = Ok ts /\ length ts = n_coeffs (rdegrees outer) /\
    Compose_RP_s MAXB outer inner = Ok r /\
    (forall i X w (delta : V), nth_error (control_points (weighted_spline outer)) i = Some X ->
       nth_error (control_points (weight_function outer)) i = Some w ->
       exists t r', nth_error ts i = Some t /\ rwf t /\
         Compose_RP_s MAXB (mkR (with_cps (weighted_spline outer) (upd_list (control_points (weighted_spline outer)) i
           (vadd X (vscale w delta)))) (weight_function outer)) inner = Ok r' /\
         forall xs : list T, length xs = length (degrees inner) -> rdomain r xs ->
           exists a c, R_Evaluate r xs = Ok a /\ R_Evaluate t xs = Ok c /\
             R_Evaluate r' xs = Ok (vadd a (vscale c delta))) /\
    (forall (pts : list V) (xs : list T), length xs = length (degrees inner) -> rdomain r xs ->
       (forall i, i < n_coeffs (rdegrees outer) -> nth i (control_points (weighted_spline outer)) v0 =
          vscale (nth i (control_points (weight_function outer)) s0) (nth i pts v0)) ->
       exists cs : list T, mapM (fun t => R_Evaluate t xs) ts = Ok cs /\
         R_Evaluate r xs = Ok (vsum (length ts) (fun i => vscale (nth i cs s0) (nth i pts v0)))).
Proof. exact c64_sensitivity_rational_of_polynomial. Qed.
Print Assumptions C64_sensitivity_rational_of_polynomial.
Theorem C64_sensitivity_rational_of_rational : forall (T V : Type) (o : SOps T) (ov : VOps T V) (F : SField T)
  (M : VMod T V) (MAXB fuel : nat) (outer : rspline T V) (inner : rspline T T),
  MAXB <= 68 -> rwf outer -> length (rdegrees outer) = 1 -> rwf inner ->
  Forall (fun p => list_sum (rdegrees outer) * p < MAXB) (rdegrees inner) ->
  Forall (fun p => p < MAXB) (rdegrees outer) ->
  (Z.of_nat (n_coeffs (rdegrees inner)) < 2 ^ 31)%Z -> list_max (rdegrees inner) + 1 < fuel ->
  exists ts r, ComposeSensitivity_RR_s MAXB fuel outer inner = Ok ts /\ length ts = n_coeffs (rdegrees outer) /\
    Compose_RR_s MAXB fuel outer inner = Ok r /\
    (forall i X w (delta : V), nth_error (control_points (weighted_spline outer)) i = Some X ->
       nth_error (control_points (weight_function outer)) i = Some w ->
       exists t r', nth_error ts i = Some t /\ rwf t /\
         Compose_RR_s MAXB fuel (mkR (with_cps (weighted_spline outer) (upd_list (control_points (weighted_spline outer)) i
           (vadd X (vscale w delta)))) (weight_function outer)) inner = Ok r' /\
         forall xs : list T, rdomain inner xs -> rdomain r xs ->
           exists a c, R_Evaluate r xs = Ok a /\ R_Evaluate t xs = Ok c /\
             R_Evaluate r' xs = Ok (vadd a (vscale c delta))) /\
    (forall (pts : list V) (xs : list T), rdomain inner xs -> rdomain r xs ->
       (forall i, i < n_coeffs (rdegrees outer) -> nth i (control_points (weighted_spline outer)) v0 =
          vscale (nth i (control_points (weight_function outer)) s0) (nth i pts v0)) ->
       exists cs : list T, mapM (fun t => R_Evaluate t xs) ts = Ok cs /\
         R_Evaluate r xs = Ok (vsum (length ts) (fun i => vscale (nth i cs s0) (nth i pts v0)))).
Proof. exact c64_sensitivity_rational_of_rational. Qed.
Print Assumptions C64_sensitivity_rational_of_rational.
Example C64_case : wf ex_so /\ wf ex_si /\ rwf ex_sri /\ rwf ex_sro /\
  length (degrees ex_so) = 1 /\ length (rdegrees ex_sro) = 1 /\
  Forall in_unit (control_points ex_si) /\ in_unit_interval ex_sri /\
  Forall (fun p => list_sum (degrees ex_so) * p < 4) (degrees ex_si) /\
  Forall (fun p => list_sum (degrees ex_so) * p < 4) (rdegrees ex_sri) /\
  Forall (fun p => p < 4) (degrees ex_so) /\
  (exists r, Compose_s 4 ex_so ex_si = Ok r /\ degrees r = [2] /\
     Evaluate ex_si [Q2Qc 2] = Ok (Q2Qc 0) /\ Evaluate r [Q2Qc 2] = Ok (Q2Qc 1)) /\
  (exists r, Compose_PR_s 4 4 ex_so ex_sri = Ok r /\ R_Evaluate r [Q2Qc (1 # 2)] = Ok (Q2Qc (17 # 9))) /\
  (exists r, Compose_RP_s 4 ex_sro ex_si = Ok r /\ R_Evaluate r [Q2Qc 2] = Ok (Q2Qc 1)) /\
  (exists r, Compose_RR_s 4 4 ex_sro ex_sri = Ok r /\ R_Evaluate r [Q2Qc (1 # 2)] = Ok (Q2Qc (19 # 7))) /\
  ~ Forall in_unit (control_points ex_s) /\ Compose_s 4 ex_so ex_s = Throw.
Proof.
  do 7 (split; [case_|]). split.
  { intros idx Hv. inversion Hv as [|p i ps is Hp Hr]; subst. inversion Hr; subst.
    destruct i as [|[|i]]; [| |lia]; (eexists; split; [vm_compute; reflexivity|]); split; vm_compute; reflexivity. }
  do 3 (split; [case_|]).
  do 4 (split; [eexists; split; [vm_compute; reflexivity|case_]|]).
  split; [|reflexivity]. intros A. inversion A as [|x l H1 H2]; subst. inversion H2 as [|y m [H3 _] H4]; subst.
  vm_compute in H3. discriminate.
Qed.
