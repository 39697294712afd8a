(** Properties C30, C31, C61: composition with rational splines. *)
From Coq Require Import Arith Lia List ZArith NArith Bool QArith Qcanon.
From Verif Require Import Prelude Scalar Spec SpecSpline Coord ModelBasis ModelSpline Examples ModelRational SpecRational
  ClaimsG ClaimsH.
Import ListNotations.
Local Open Scope nat_scope.

(** A curve from 0 to 1 with weights 1, 2, as rational spline in one-dimensional space; a rational
    scalar function and a line. *)
Definition ex_ri : rspline Qc (point Qc 1) :=
  mkR (mkSpline [1] 2 [1] [(Q2Qc 0, tt); (Q2Qc 2, tt)]) (mkSpline [1] 2 [1] [Q2Qc 1; Q2Qc 2]).
Definition ex_ro : rspline Qc Qc :=
  mkR (mkSpline [1] 2 [1] [Q2Qc 1; Q2Qc 9]) (mkSpline [1] 2 [1] [Q2Qc 1; Q2Qc 3]).
Definition ex_po : spline Qc := mkSpline [1] 2 [1] [Q2Qc 1; Q2Qc 3].
Definition ex_pi : spline (point Qc 1) := mkSpline [1] 2 [1] [(Q2Qc 1, tt); (Q2Qc 0, tt)].

(** C30: the composition evaluates to outer(inner(t)). *)
Theorem C30_polynomial_of_rational : forall (T V : Type) (o : SOps T) (ov : VOps T V) (F : SField T) (M : VMod T V)
  (O : SOrder T) (MAXB fuel : nat) (outer : spline V) (inner : rspline T (point T (length (degrees outer)))),
  MAXB <= 68 -> wf outer -> rwf inner -> in_unit_cube inner ->
  Forall (fun p => list_sum (degrees outer) * p < MAXB) (rdegrees inner) ->
  Forall (fun p => p < MAXB) (degrees outer) ->
  (Z.of_nat (n_coeffs (rdegrees inner)) < 2 ^ 31)%Z -> list_max (rdegrees inner) + 1 < fuel ->
  exists r, Compose_PR MAXB fuel outer inner = Ok r /\ rwf r /\
    rdegrees r = map (fun p => list_sum (degrees outer) * p) (rdegrees inner) /\
    forall xs : list T, rdomain inner xs ->
      exists p v, R_Evaluate inner xs = Ok p /\ Evaluate outer (plist _ p) = Ok v /\ R_Evaluate r xs = Ok v.
Proof. exact c30_polynomial_of_rational. Qed.
Print Assumptions C30_polynomial_of_rational.
Theorem C30_rational_of_polynomial : forall (T V : Type) (o : SOps T) (ov : VOps T V) (F : SField T) (M : VMod T V)
  (O : SOrder T) (MAXB : nat) (outer : rspline T V) (inner : spline (point T (length (rdegrees outer)))),
  MAXB <= 68 -> rwf outer -> wf inner ->
  (forall p k, In p (control_points inner) -> k < length (rdegrees outer) -> in_unit (coord _ p k)) ->
  Forall (fun p => list_sum (rdegrees outer) * p < MAXB) (degrees inner) ->
  Forall (fun p => p < MAXB) (rdegrees outer) ->
  exists r, Compose_RP MAXB outer inner = Ok r /\ rwf r /\
    rdegrees r = map (fun p => list_sum (rdegrees outer) * p) (degrees inner) /\
    forall xs : list T, length xs = length (degrees inner) ->
      exists p, Evaluate inner xs = Ok p /\ R_Evaluate r xs = R_Evaluate outer (plist _ p) /\
        (rdomain outer (plist _ p) -> is_ok (R_Evaluate r xs)).
Proof. exact c30_rational_of_polynomial. Qed.
Print Assumptions C30_rational_of_polynomial.
Theorem C30_rational_of_rational : forall (T V : Type) (o : SOps T) (ov : VOps T V) (F : SField T) (M : VMod T V)
  (MAXB fuel : nat) (outer : rspline T V) (inner : rspline T (point T (length (rdegrees outer)))),
  MAXB <= 68 -> rwf outer -> rwf inner ->
  Forall (fun p => list_sum (rdegrees outer) * p < MAXB) (rdegrees inner) ->
  Forall (fun p => p < MAXB) (rdegrees outer) ->
  (Z.of_nat (n_coeffs (rdegrees inner)) < 2 ^ 31)%Z -> list_max (rdegrees inner) + 1 < fuel ->
  exists r, Compose_RR MAXB fuel outer inner = Ok r /\ rwf r /\
    rdegrees r = map (fun p => list_sum (rdegrees outer) * p) (rdegrees inner) /\
    forall xs : list T, rdomain inner xs ->
      exists p, R_Evaluate inner xs = Ok p /\ R_Evaluate r xs = R_Evaluate outer (plist _ p) /\
        (rdomain outer (plist _ p) -> is_ok (R_Evaluate r xs)).
Proof. exact c30_rational_of_rational. Qed.
Print Assumptions C30_rational_of_rational.
Example C30_case : rwf ex_ri /\ rwf ex_ro /\ wf ex_po /\ wf ex_pi /\ in_unit_cube ex_ri /\
  (forall p k, In p (control_points ex_pi) -> k < 1 -> in_unit (coord 1 p k)) /\
  Forall (fun p => list_sum (rdegrees ex_ro) * p < 4) (rdegrees ex_ri) /\
  Forall (fun p => p < 4) (rdegrees ex_ro) /\
  (exists r, Compose_PR 4 4 ex_po ex_ri = Ok r /\ R_Evaluate r [Q2Qc (1 # 2)] = Ok (Q2Qc (7 # 3))) /\
  (exists r, Compose_RP 4 ex_ro ex_pi = Ok r /\ R_Evaluate r [Q2Qc (1 # 2)] = Ok (Q2Qc (5 # 2))) /\
  (exists r, Compose_RR 4 4 ex_ro ex_ri = Ok r /\ R_Evaluate r [Q2Qc (1 # 2)] = Ok (Q2Qc (19 # 7))).
Proof.
  do 4 (split; [case_|]). split.
  { intros idx Hv. inversion Hv as [|p i ps is Hp Hr]; subst. inversion Hr; subst.
    destruct i as [|[|i]]; [| |lia]; (eexists; split; [vm_compute; reflexivity|]);
      (constructor; [split; vm_compute; reflexivity|constructor]). }
  split.
  { intros p k [<-|[<-|[]]] Hk; (destruct k; [|lia]); split; vm_compute; reflexivity. }
  do 2 (split; [case_|]).
  split; [|split]; (eexists; split; [vm_compute; reflexivity|case_]).
Qed.

(** C31: the rational/rational overload accepts inner splines outside the unit cube. *)
Theorem C31_rejects_refuted : exists (outer : rspline Qc Qc) (inner : rspline Qc (point Qc 1)) p r ts,
  rwf outer /\ rwf inner /\ R_ControlPoint inner [1] = Ok p /\ ~ in_unit (coord 1 p 0) /\
  Compose_RR 4 4 outer inner = Ok r /\ ComposeSensitivity_RR 4 4 outer inner = Ok ts.
Proof. exact c31_rejects_refuted. Qed.
Print Assumptions C31_rejects_refuted.
(** Missing from the full property: rational outer with rational inner splines. *)
Theorem C31_rejects_partial : forall (T V : Type) (o : SOps T) (ov : VOps T V) (F : SField T) (M : VMod T V)
  (O : SOrder T) (MAXB fuel d : nat) (po : spline V) (ro : rspline T V)
  (pinner : spline (point T d)) (rinner : rspline T (point T d)),
  (wf pinner -> (exists p k, In p (control_points pinner) /\ k < d /\ ~ in_unit (coord d p k)) ->
     Compose MAXB po pinner = Throw /\ ComposeSensitivity MAXB po pinner = Throw /\
     Compose_RP MAXB ro pinner = Throw /\ ComposeSensitivity_RP MAXB ro pinner = Throw) /\
  (rwf rinner -> Forall (fun w => w <> s0) (control_points (weight_function rinner)) ->
   (exists idx p k, valid_index (rdegrees rinner) idx /\ R_ControlPoint rinner idx = Ok p /\ k < d /\
      ~ in_unit (coord d p k)) ->
     Compose_PR MAXB fuel po rinner = Throw /\ ComposeSensitivity_PR MAXB fuel po rinner = Throw).
Proof. exact c31_rejects_partial. Qed.
Print Assumptions C31_rejects_partial.
Example C31_case : Compose_RP 4 ex_rr_outer (weighted_spline ex_rr_inner) = Throw /\
  Compose_PR 4 4 ex_po ex_rr_inner = Throw.
Proof. case_. Qed.

(** C61: sensitivities of the compositions. *)
Theorem C61_sensitivity_polynomial_of_rational : forall (T V : Type) (o : SOps T) (ov : VOps T V) (F : SField T)
  (M : VMod T V) (O : SOrder T) (MAXB fuel : nat) (outer : spline V)
  (inner : rspline T (point T (length (degrees outer)))),
  MAXB <= 68 -> wf outer -> rwf inner -> in_unit_cube inner ->
  Forall (fun p => list_sum (degrees outer) * p < MAXB) (rdegrees inner) ->
  Forall (fun p => p < MAXB) (degrees outer) ->
  (Z.of_nat (n_coeffs (rdegrees inner)) < 2 ^ 31)%Z -> list_max (rdegrees inner) + 1 < fuel ->
  exists ts r, ComposeSensitivity_PR MAXB fuel outer inner = Ok ts /\ length ts = length (control_points outer) /\
    Compose_PR MAXB fuel outer inner = Ok r /\
    (** moving control point i by delta *)
    (forall i P (delta : V), nth_error (control_points outer) i = Some P ->
       exists t r', nth_error ts i = Some t /\ rwf t /\
         Compose_PR MAXB fuel (with_cps outer (upd_list (control_points outer) i (vadd P delta))) inner = Ok r' /\
         forall xs : list T, rdomain inner xs ->
           exists a c, R_Evaluate r xs = Ok a /\ R_Evaluate t xs = Ok c /\
             R_Evaluate r' xs = Ok (vadd a (vscale c delta))) /\
    (** the composition is the combination of the control points *)
    (forall xs : list T, rdomain inner xs ->
       exists cs : list T, mapM (fun t => R_Evaluate t xs) ts = Ok cs /\
         R_Evaluate r xs = Ok (vsum (length ts) (fun i => vscale (nth i cs s0) (nth i (control_points outer) v0)))).
Proof. exact c61_sensitivity_polynomial_of_rational. Qed.
Print Assumptions C61_sensitivity_polynomial_of_rational.
Theorem C61_sensitivity_rational_of_polynomial : forall (T V : Type) (o : SOps T) (ov : VOps T V) (F : SField T)
  (M : VMod T V) (O : SOrder T) (MAXB : nat) (outer : rspline T V)
  (inner : spline (point T (length (rdegrees outer)))),
  MAXB <= 68 -> rwf outer -> wf inner ->
  (forall p k, In p (control_points inner) -> k < length (rdegrees outer) -> in_unit (coord _ p k)) ->
  Forall (fun p => list_sum (rdegrees outer) * p < MAXB) (degrees inner) ->
  Forall (fun p => p < MAXB) (rdegrees outer) ->
  exists ts r, ComposeSensitivity_RP MAXB outer inner = Ok ts /\ length ts = n_coeffs (rdegrees outer) /\
    Compose_RP MAXB outer inner = Ok r /\
    (** moving control point i by delta, that is the weighted one by w_i delta *)
    (forall i X w (delta : V), nth_error (control_points (weighted_spline outer)) i = Some X ->
       nth_error (control_points (weight_function outer)) i = Some w ->
       exists t r', nth_error ts i = Some t /\ rwf t /\
         Compose_RP MAXB (mkR (with_cps (weighted_spline outer) (upd_list (control_points (weighted_spline outer)) i
           (vadd X (vscale w delta)))) (weight_function outer)) inner = Ok r' /\
         forall xs : list T, length xs = length (degrees inner) -> rdomain r xs ->
           exists a c, R_Evaluate r xs = Ok a /\ R_Evaluate t xs = Ok c /\
             R_Evaluate r' xs = Ok (vadd a (vscale c delta))) /\
    (** the composition is the combination of the control points *)
    (forall (pts : list V) (xs : list T), length xs = length (degrees inner) -> rdomain r xs ->
       (forall i, i < n_coeffs (rdegrees outer) -> nth i (control_points (weighted_spline outer)) v0 =
          vscale (nth i (control_points (weight_function outer)) s0) (nth i pts v0)) ->
       exists cs : list T, mapM (fun t => R_Evaluate t xs) ts = Ok cs /\
         R_Evaluate r xs = Ok (vsum (length ts) (fun i => vscale (nth i cs s0) (nth i pts v0)))).
Proof. exact c61_sensitivity_rational_of_polynomial. Qed.
Print Assumptions C61_sensitivity_rational_of_polynomial.
Theorem C61_sensitivity_rational_of_rational : forall (T V : Type) (o : SOps T) (ov : VOps T V) (F : SField T)
  (M : VMod T V) (MAXB fuel : nat) (outer : rspline T V)
  (inner : rspline T (point T (length (rdegrees outer)))),
  MAXB <= 68 -> rwf outer -> rwf inner ->
  Forall (fun p => list_sum (rdegrees outer) * p < MAXB) (rdegrees inner) ->
  Forall (fun p => p < MAXB) (rdegrees outer) ->
  (Z.of_nat (n_coeffs (rdegrees inner)) < 2 ^ 31)%Z -> list_max (rdegrees inner) + 1 < fuel ->
  exists ts r, ComposeSensitivity_RR MAXB fuel outer inner = Ok ts /\ length ts = n_coeffs (rdegrees outer) /\
    Compose_RR MAXB fuel outer inner = Ok r /\
    (** moving control point i by delta, that is the weighted one by w_i delta *)
    (forall i X w (delta : V), nth_error (control_points (weighted_spline outer)) i = Some X ->
       nth_error (control_points (weight_function outer)) i = Some w ->
       exists t r', nth_error ts i = Some t /\ rwf t /\
         Compose_RR MAXB fuel (mkR (with_cps (weighted_spline outer) (upd_list (control_points (weighted_spline outer)) i
           (vadd X (vscale w delta)))) (weight_function outer)) inner = Ok r' /\
         forall xs : list T, rdomain inner xs -> rdomain r xs ->
           exists a c, R_Evaluate r xs = Ok a /\ R_Evaluate t xs = Ok c /\
             R_Evaluate r' xs = Ok (vadd a (vscale c delta))) /\
    (** the composition is the combination of the control points *)
    (forall (pts : list V) (xs : list T), rdomain inner xs -> rdomain r xs ->
       (forall i, i < n_coeffs (rdegrees outer) -> nth i (control_points (weighted_spline outer)) v0 =
          vscale (nth i (control_points (weight_function outer)) s0) (nth i pts v0)) ->
       exists cs : list T, mapM (fun t => R_Evaluate t xs) ts = Ok cs /\
         R_Evaluate r xs = Ok (vsum (length ts) (fun i => vscale (nth i cs s0) (nth i pts v0)))).
Proof. exact c61_sensitivity_rational_of_rational. Qed.
Print Assumptions C61_sensitivity_rational_of_rational.
Example C61_case : exists a b, ComposeSensitivity_RR 4 4 ex_ro ex_ri = Ok [a; b] /\
  R_Evaluate b [Q2Qc (1 # 2)] = Ok (Q2Qc (6 # 7)).
Proof. do 2 eexists. split; [vm_compute; reflexivity|case_]. Qed.
