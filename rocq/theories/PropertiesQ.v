(** Property C67: splines over AlgoDiffType. *)
From Coq Require Import Arith Lia List Bool ZArith Reals Lra.
From Verif Require Import Prelude Scalar Spec SpecSpline ModelBasis ModelSpline ModelRational SpecRational
  SpecReal ModelAD ModelADSpline SpecADSpline ProofAD ClaimsQ.
Import ListNotations.
Local Open Scope R_scope.

(** C67: evaluating a spline whose numbers carry gradients gives the value and the gradient. *)
Theorem C67_evaluate : forall (y : list R) (d : nat) (s : spline (point (adt R) d)) (xs : list (adt R))
  (fc : nat -> list R -> point R d) (fx : nat -> list R -> R),
  wf s -> length xs = length (degrees s) ->
  (forall i p, nth_error (control_points s) i = Some p -> tracks_point y d p (fc i)) ->
  (forall k x, nth_error xs k = Some x -> tracks y x (fx k)) ->
  exists a, Evaluate_AD (length y) s xs = Ok a /\
    tracks_point y d a (fun y' => bezier (degrees s) (map (fun k => fx k y') (seq 0 (length xs))) (fun i => fc i y')).
Proof. exact c67_evaluate. Qed.
Print Assumptions C67_evaluate.
Theorem C67_evaluate_scalar : forall (y : list R) (s : spline (adt R)) (xs : list (adt R))
  (fc fx : nat -> list R -> R),
  wf s -> length xs = length (degrees s) ->
  (forall i c, nth_error (control_points s) i = Some c -> tracks y c (fc i)) ->
  (forall k x, nth_error xs k = Some x -> tracks y x (fx k)) ->
  exists a, Evaluate_AD_s (length y) s xs = Ok a /\
    tracks y a (fun y' => bezier (degrees s) (map (fun k => fx k y') (seq 0 (length xs))) (fun i => fc i y')).
Proof. exact c67_evaluate_scalar. Qed.
Print Assumptions C67_evaluate_scalar.
Theorem C67_forward_evaluate : forall (y : list R) (MAXB : nat) (s : spline (adt R)) (xs : list (adt R))
  (fc fx : nat -> list R -> R), (MAXB <= 68)%nat ->
  wf s -> length xs = length (degrees s) -> Forall (fun p => p < MAXB)%nat (degrees s) ->
  (forall i c, nth_error (control_points s) i = Some c -> tracks y c (fc i)) ->
  (forall k x, nth_error xs k = Some x -> tracks y x (fx k)) ->
  exists a, ForwardEvaluate_AD_s (length y) MAXB s xs = Ok a /\
    tracks y a (fun y' => bezier (degrees s) (map (fun k => fx k y') (seq 0 (length xs))) (fun i => fc i y')).
Proof. exact c67_forward_evaluate. Qed.
Print Assumptions C67_forward_evaluate.
Theorem C67_rational : forall (y : list R) (d : nat) (r : rspline (adt R) (point (adt R) d)) (xs : list (adt R))
  (fc : nat -> list R -> point R d) (fw fx : nat -> list R -> R),
  rwf r -> length xs = length (rdegrees r) ->
  (forall i p, nth_error (control_points (weighted_spline r)) i = Some p -> tracks_point y d p (fc i)) ->
  (forall i w, nth_error (control_points (weight_function r)) i = Some w -> tracks y w (fw i)) ->
  (forall k x, nth_error xs k = Some x -> tracks y x (fx k)) ->
  let numerator := fun y' => bezier (rdegrees r) (map (fun k => fx k y') (seq 0 (length xs))) (fun i => fc i y') in
  let denominator := fun y' => bezier (rdegrees r) (map (fun k => fx k y') (seq 0 (length xs))) (fun i => fw i y') in
  (denominator y <> 0 -> exists a, R_Evaluate_AD (length y) r xs = Ok a /\
     tracks_point y d a (fun y' => vscale (1 / denominator y') (numerator y'))) /\
  (denominator y = 0 -> R_Evaluate_AD (length y) r xs = NonFinite).
Proof. exact c67_rational. Qed.
Print Assumptions C67_rational.
Theorem C67_parameters : forall (MAXB d : nat) (s : spline (point R d)) (sa : spline (point (adt R) d)) (y : list R)
  (xs : list (adt R)),
  (MAXB <= 68)%nat -> wf s -> length y = length (degrees s) -> Forall (fun p => p < MAXB)%nat (degrees s) ->
  (forall k x, nth_error xs k = Some x -> AD_input (length y) (nth k y 0) k = Ok x) -> length xs = length y ->
  wf sa -> degrees sa = degrees s ->
  (forall i p q, nth_error (control_points sa) i = Some p -> nth_error (control_points s) i = Some q ->
     plist d p = map (AD_constant (length y)) (plist d q)) ->
  exists a v, Evaluate_AD (length y) sa xs = Ok a /\ Evaluate s y = Ok v /\
    forall c, (c < d)%nat ->
      let ac := nth c (plist d a) (AD_constant (length y) 0) in
      ad_v ac = nth c (plist d v) 0 /\
      forall k, (k < length y)%nat -> exists g,
        EvaluateDerivative MAXB s y (upd_list (repeat 0%nat (length y)) k 1%nat) = Ok g /\
        nth k (ad_d ac) 0 = nth c (plist d g) 0.
Proof. exact c67_parameters. Qed.
Print Assumptions C67_parameters.
Theorem C67_control_points : forall (MAXB : nat) (s : spline R) (sa : spline (adt R)) (ts : list R),
  (MAXB <= 68)%nat -> wf s -> length ts = length (degrees s) -> Forall (fun p => p < MAXB)%nat (degrees s) ->
  wf sa -> degrees sa = degrees s ->
  (forall i c, nth_error (control_points sa) i = Some c ->
     AD_input (length (control_points s)) (nth i (control_points s) 0) i = Ok c) ->
  exists a v bs, Evaluate_AD_s (length (control_points s)) sa (map (AD_constant (length (control_points s))) ts) = Ok a /\
    Evaluate s ts = Ok v /\ BasisFunctions MAXB s ts = Ok bs /\ ad_v a = v /\ ad_d a = bs.
Proof. exact c67_control_points. Qed.
Print Assumptions C67_control_points.
(** The line from 2 to 5 at 1/4, both control points being inputs. *)
Example C67_case :
  let s := mkSpline [1%nat] 2 [1%nat] [2; 5] in
  let sa := mkSpline [1%nat] 2 [1%nat] [mkADT 2 [1; 0]; mkADT 5 [0; 1]] in
  wf s /\ wf sa /\ AD_input 2 2 0 = Ok (mkADT 2 [1; 0]) /\ AD_input 2 5 1 = Ok (mkADT 5 [0; 1]) /\
  Evaluate_AD_s 2 sa [AD_constant 2 (1 / 4)] = Ok (mkADT (11 / 4) [3 / 4; 1 / 4]).
Proof.
  cbv zeta. split; [|split; [|split; [|split]]].
  - repeat split; discriminate.
  - repeat split; discriminate.
  - reflexivity.
  - reflexivity.
  - cbn. f_equal. f_equal; [lra|]. f_equal; [lra|]. f_equal. lra.
Qed.
(** A quotient: the point 3 with weight 2 + y at y = 4. *)
Example C67_case_rational :
  let r := mkR (mkSpline [0%nat] 1 [1%nat] [(mkADT 3 [0], tt) : point (adt R) 1])
                     (mkSpline [0%nat] 1 [1%nat] [mkADT 6 [1]]) in
  rwf r /\ R_Evaluate_AD 1 r [AD_constant 1 0] = Ok ((mkADT (1 / 2) [- 1 / 12], tt) : point (adt R) 1).
Proof.
  cbv zeta. split; [repeat split; discriminate|].
  cbn. unfold vdiv, divS. cbn. unfold AD_eq. cbn. unfold eqb. destruct (Req_EM_T 6 0); [lra|].
  cbn. rewrite !fdiv_ok by lra. cbn. do 2 f_equal. f_equal; [lra|]. f_equal. lra.
Qed.
