(** Property C02: structural consistency along histories. *)
From Coq Require Import Arith List QArith Qcanon.
From Verif Require Import Prelude Scalar Spec SpecSpline ModelSpline Examples ModelRational SpecRational SpecHistory ClaimsN.
Import ListNotations.
Local Open Scope nat_scope.

(** C02: every successful call leaves consistent splines. *)
(** Missing from the full property: default-constructed splines, see the next theorem. *)
Theorem C02_histories_partial : forall (T : Type) (o : SOps T) (MAXB : nat),
  (forall V ov (s : spline V), built MAXB V ov s -> wf s) /\
  (forall V ov (r : rspline T V), rbuilt MAXB V ov r -> rwf r).
Proof. exact c02_histories_partial. Qed.
Print Assumptions C02_histories_partial.
Theorem C02_default_refuted : exists (dim : nat), dim <> 0 /\ forall V,
  let s : spline V := Spline_default dim in
  length (control_points s) <> n_coeffs (degrees s) /\ number_of_control_points s <> n_coeffs (degrees s).
Proof. exact c02_default_refuted. Qed.
Print Assumptions C02_default_refuted.
Theorem C02_default_update : forall (T V : Type) (o : SOps T) (ov : VOps T V) dim deg, deg <> [] ->
  exists s, UpdateDegrees (Spline_default dim) deg = Ok s /\ wf s /\ degrees s = deg.
Proof. exact c02_default_update. Qed.
Print Assumptions C02_default_update.
Theorem C02_default_undefined : forall (T V : Type) (o : SOps T) (ov : VOps T V) dim, dim <> 0 ->
  let s : spline V := Spline_default dim in
  (forall i, LocalToGlobalIndex s i = UB) /\
  (forall idx, length idx = dim -> ControlPoint s idx = UB) /\
  (forall xs : list T, length xs = dim -> Evaluate s xs = UB).
Proof. exact c02_default_undefined. Qed.
Print Assumptions C02_default_undefined.
(** A line is elevated, multiplied by itself, and split; the right half has degree 3. *)
Definition ex_line : res (spline Qc) := Spline_deg_points [1] [Q2Qc 1; Q2Qc 3].
Definition ex_cubic : res (spline Qc) := do a <- ex_line; do b <- OrderElevate a 0; spline_mul 4 smul a b.
Definition ex_half : res (spline Qc) := do s <- ex_cubic; do l <- SplitAtPosition s (Q2Qc (1 # 2)) 0; get l 1.
Example C02_case : exists t, ex_half = Ok t /\ built 4 Qc (VOps_scalar Qc) t /\ degrees t = [3] /\
  length (control_points t) = 4.
Proof.
  destruct ex_half as [t| | | | |] eqn:E; [|exfalso; vm_compute in E; discriminate ..]. exists t. split; [reflexivity|]. split.
  - unfold ex_half, ex_cubic, ex_line in E. apply bind_ok in E. destruct E as (s & Es & E). apply bind_ok in Es.
    destruct Es as (a & Ea & Es). apply bind_ok in Es. destruct Es as (b & Eb & Es). apply bind_ok in E. destruct E as (l & El & E).
    pose proof (b_points 4 Qc (VOps_scalar Qc) _ _ _ Ea) as Ba.
    eapply b_split; [|exact El|unfold get in E; destruct (nth_error l 1) eqn:En; [|discriminate]; injection E as <-; eapply nth_error_In; exact En].
    apply (b_mul 4 Qc Qc Qc (VOps_scalar Qc) (VOps_scalar Qc) (VOps_scalar Qc) smul a b s Ba); [|exact Es].
    exact (b_elevate 4 _ _ _ _ _ Ba Eb).
  - assert (H : exists c, ex_half = Ok (mkSpline [3] 4 [1] c) /\ length c = 4) by (eexists; split; [vm_compute; reflexivity|reflexivity]).
    destruct H as (c & H & Hc). rewrite E in H. injection H as ->. split; [reflexivity|exact Hc].
Qed.
