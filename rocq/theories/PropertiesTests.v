(** Property C79, and the deterministic unit tests of the project replayed in exact arithmetic. *)
From Coq Require Import Arith Lia List ZArith NArith Bool QArith Qcanon Reals Ascii String.
From Verif Require Import Prelude Scalar Spec SpecSpline Coord ModelBasis ModelSpline ModelPoint ModelRational ModelBase64 Examples
  ClaimsTests.
Import ListNotations.
Local Open Scope nat_scope.

(** C79: what the tests of the Bernstein polynomials assert, for every degree, parameter and derivative. *)
Theorem C79_sums : forall (MAXB degree : nat) (x : R), MAXB <= 68 -> degree < MAXB ->
  (exists r, BernsteinEvaluate MAXB degree x = Ok r /\ fold_right Rplus 0%R r = 1%R) /\
  forall deriv, 0 < deriv -> exists r, BernsteinEvaluateDerivative MAXB degree x deriv = Ok r /\ fold_right Rplus 0%R r = 0%R.
Proof. exact c79_sums. Qed.
Print Assumptions C79_sums.
Theorem C79_quadratic : forall (MAXB : nat) (x : R), MAXB <= 68 -> 2 < MAXB ->
  BernsteinEvaluateDerivative MAXB 2 x 0 = Ok [1 - 2 * x + x * x; 2 * x - 2 * x * x; x * x]%R /\
  BernsteinEvaluateDerivative MAXB 2 x 1 = Ok [-2 + 2 * x; 2 - 4 * x; 2 * x]%R /\
  BernsteinEvaluateDerivative MAXB 2 x 2 = Ok [2; -4; 2]%R.
Proof. exact c79_quadratic. Qed.
Print Assumptions C79_quadratic.
Theorem C79_envelope_refuted : exists (degree i : nat) (x : R) (r : list R), degree < 30 /\ i <= degree /\ (0 < x < 1)%R /\
  BernsteinEvaluate 30 degree x = Ok r /\ (nth i r 0 > 1 / sqrt (2 * PI * INR degree * x * (1 - x)))%R.
Proof. exact c79_envelope_refuted. Qed.
Print Assumptions C79_envelope_refuted.
(** Missing from the full property: the constant 2 pi of the test; the bound holds with 2 e. *)
Theorem C79_envelope_partial : forall (MAXB degree : nat) (x : R), MAXB <= 68 -> 0 < degree < MAXB -> (0 < x < 1)%R ->
  exists r, BernsteinEvaluate MAXB degree x = Ok r /\
    forall i, i <= degree -> (nth i r 0 <= 1 / sqrt (2 * exp 1 * INR degree * x * (1 - x)))%R.
Proof. exact c79_envelope_partial. Qed.
Print Assumptions C79_envelope_partial.
Example C79_case :
  (exists r, BernsteinEvaluate 30 8 (Q2Qc (1 # 18)) = Ok r /\ nth 0 (map (fun c : Qc => this c) r) 0%Q = (6975757441 # 11019960576)%Q) /\
  exists r, BernsteinEvaluateDerivative 30 3 (Q2Qc (1 # 2)) 1 = Ok r /\
    map (fun c : Qc => this c) r = [-3 # 4; -3 # 4; 3 # 4; 3 # 4]%Q.
Proof. split; eexists; (split; [vm_compute; reflexivity|]); case_. Qed.

(** * Replay of the tests in /repo/tests whose inputs are fixed

    The inputs are those of the test files.  Expectations [EXPECT_EQ(a, b)] become equations, and
    expectations at random parameters are replayed at one parameter (the claims cover all of them).
    Weights 1/sqrt(2) are replaced by 1/2. *)
Definition q (n : Z) (d : positive) : Qc := Q2Qc (n # d).
Definition z (n : Z) : Qc := q n 1.
Definition p2 (a b : Qc) : point Qc 2 := (a, (b, tt)).
Definition p3 (a b c : Qc) : point Qc 3 := (a, (b, (c, tt))).
(** Everything stored in a spline, with the numbers as plain fractions. *)
Definition fracs {d} (p : point Qc d) : list Q := map (fun c : Qc => this c) (plist d p).
Definition contents {d} (r : res (spline (point Qc d))) : res (list nat * nat * list nat * list (list Q)) :=
  do s <- r; Ok (degrees s, number_of_control_points s, index_offsets s, map fracs (control_points s)).
Definition value {d} (r : res (point Qc d)) : res (list Q) := do v <- r; Ok (fracs v).
Definition number (r : res Qc) : res Q := do v <- r; Ok (this v).
(** [EXPECT_EQ]: both calls return, and they return the same. *)
Definition same {A} (a b : res A) : Prop := exists v, a = Ok v /\ b = Ok v.
Ltac replay := repeat split; first [ vm_compute; reflexivity | eexists; split; vm_compute; reflexivity ].

(** tests/order_and_derivation/order_and_derivation_test.cpp:93-96, 139-148 *)
Definition the_line := Spline_deg_points [1] [p2 (z 0) (z 0); p2 (z 1) (z 1)].
Definition the_elevated := Spline_deg_points [2] [p2 (z 0) (z 0); p2 (q 1 2) (q 1 2); p2 (z 1) (z 1)].
Definition the_derivative := Spline_deg_points [1] [p2 (z 1) (z 1); p2 (z 1) (z 1)].
Example replay_elevation :
  same (contents (do s <- the_line; OrderElevate (T := Qc) s 0)) (contents the_elevated) /\
  same (contents (do s <- the_elevated; DerivativeWRT 6 s [1])) (contents the_derivative) /\
  same (contents (do s <- the_line; do t <- DerivativeWRT 6 s [1]; OrderElevate (T := Qc) t 0)) (contents the_derivative).
Proof. replay. Qed.

(** tests/basic_operations/operations_test.cpp:44-51, 100-109 *)
Definition line1 := Spline_deg_points [2] [p3 (z 0) (z 0) (z 0); p3 (z 0) (q 1 2) (z 0); p3 (z 0) (z 1) (z 0)].
Definition line2 := Spline_deg_points [2] [p3 (z 0) (z 0) (z 0); p3 (q 1 2) (z 0) (z 0); p3 (z 1) (z 0) (z 0)].
Definition line3 := Spline_deg_points [2] [p3 (z 0) (z 0) (z 0); p3 (q 1 2) (q 1 2) (z 0); p3 (z 1) (z 1) (z 0)].
Definition up {d} (r : res (spline (point Qc d))) := do s <- r; OrderElevate (T := Qc) s 0.
Definition plus {d} (a b : res (spline (point Qc d))) := do s <- a; do t <- b; spline_add (T := Qc) 3 s t.
Example replay_addition :
  same (contents (plus line1 line2)) (contents line3) /\
  same (contents (plus (up line1) line2)) (contents (up line3)) /\
  same (contents (plus line1 (up line2))) (contents (up line3)) /\
  same (contents (do s <- line1; spline_neg (T := Qc) s)) (contents (do s <- line1; spline_scale s (z (-1)))).
Proof. replay. Qed.

(** tests/mapping_test/mapping_test.cpp:45-77 *)
Definition to_map := Spline_deg_points [1; 1]
  [p3 (z (-1)) (z 0) (q 5 2); p3 (z 2) (z 1) (q 5 2); p3 (z (-1)) (z 0) (z 4); p3 (z 2) (z 1) (z 4)].
Definition mapped := Spline_deg_points [1; 1]
  [p3 (z 0) (z 0) (z 0); p3 (z 1) (z 1) (z 0); p3 (z 0) (z 0) (z 1); p3 (z 1) (z 1) (z 1)].
Example replay_mapping :
  (do s <- to_map; FitsIntoUnitCube s) = Ok false /\ (do s <- mapped; FitsIntoUnitCube s) = Ok true /\
  same (contents (do s <- to_map; FitIntoUnitCube s)) (contents mapped) /\
  (do s <- to_map; do t <- FitIntoUnitCube s; FitsIntoUnitCube t) = Ok true.
Proof. replay. Qed.

(** tests/spline_splitting/spline_splitting_test.cpp:44-97 *)
Definition half (k : nat) {V} (r : res (spline V)) `{VOps Qc V} (plane : Qc) (dim : nat) : res (spline V) :=
  do s <- r; do l <- SplitAtPosition s plane dim; get l k.
Definition split_line := Spline_deg_points [1] [p3 (z 0) (z 0) (z 0); p3 (z 1) (z 1) (z 1)].
Definition split_line_ho := Spline_deg_points [2] [p3 (z 0) (z 0) (z 0); p3 (z 1) (z 1) (z 0); p3 (z 2) (z 0) (z 0)].
Definition split_surface := Spline_deg_points [1; 1] [z 2; z 4; z (-1); z 2].
Example replay_splitting :
  same (contents (half 0 split_line (q 1 2) 0))
    (contents (Spline_deg_points [1] [p3 (z 0) (z 0) (z 0); p3 (q 1 2) (q 1 2) (q 1 2)])) /\
  same (contents (half 1 split_line (q 1 2) 0))
    (contents (Spline_deg_points [1] [p3 (q 1 2) (q 1 2) (q 1 2); p3 (z 1) (z 1) (z 1)])) /\
  same (value (do s <- half 0 split_line_ho (q 1 2) 0; Evaluate s [q 1 3])) (value (do s <- split_line_ho; Evaluate s [q 1 6])) /\
  same (number (do s <- half 0 split_surface (q 1 3) 1; Evaluate s [q 1 2; q 1 4]))
    (number (do s <- split_surface; Evaluate s [q 1 2; q 1 12])).
Proof. replay. Qed.

(** tests/composition/composition_test.cpp and
    tests/composition_sensitivities/composition_sensitivities.cpp: the composition at a parameter, and the
    sensitivity of the second control point against the difference of two compositions.  The binomial table is
    cut down to 6 rows to keep the case small. *)
Definition outer (y : Qc) := Spline_deg_points [1; 1] [p3 (z 0) (z 0) (z 0); p3 (z 2) y (z 0); p3 (z 0) (z 2) (z 0); p3 (z 2) (z 3) (z 0)].
Definition inner := Spline_deg_points [2] [p2 (z 0) (z 0); p2 (z 1) (z 0); p2 (z 1) (z 1)].
Definition composed (y : Qc) := do s <- outer y; do t <- inner; Compose 6 s t.
Definition sensitivity (k : nat) := do s <- outer (z 1); do t <- inner; do l <- ComposeSensitivity 6 s t; get l k.
Example replay_composition :
  same (value (do c <- composed (z 1); Evaluate c [q 1 3]))
    (value (do t <- inner; do x <- Evaluate t [q 1 3]; do s <- outer (z 1); Evaluate s (plist 2 x))) /\
  same (do a <- composed (z 1); do b <- composed (z 2);
        Ok (map (fun ab => fracs (vsub (snd ab) (fst ab))) (combine (control_points a) (control_points b))))
    (do s <- sensitivity 1; Ok (map (fun c : Qc => [0%Q; this c; 0%Q]) (control_points s))).
Proof. replay. Qed.

(** tests/rational_splines/rational_splines_test.cpp:47-79, 569-580, and the derivative of the scalar spline *)
Definition half_arc := [p2 (z 1) (z 0); p2 (z 1) (z 1); p2 (z 0) (z 1)].
Definition outer_arc := [p2 (z 2) (z 0); p2 (z 2) (z 2); p2 (z 0) (z 2)].
Definition arc_weights := [z 1; q 1 2; z 1].
Definition segment := R_deg_points [2; 1] (half_arc ++ outer_arc) (arc_weights ++ arc_weights).
Definition analytical (x : Qc) : Qc := ((1 + z 2 * x - z 2 * x * x) / ((1 - x + x * x) * (1 - x + x * x)))%Qc.
Example replay_rational :
  same (number (do r <- R_deg_points [2] [z 3; z 4; z 5] arc_weights; do d <- R_DerivativeWRT 6 3 r [1]; R_Evaluate d [q 1 3]))
    (number (Ok (analytical (q 1 3)))) /\
  same (value (do r <- segment; R_MaximumCorner r)) (value (Ok (p2 (z 2) (z 2)))) /\
  same (value (do r <- segment; R_MinimumCorner r)) (value (Ok (p2 (z 0) (z 0)))) /\
  (do r <- segment; R_FitsIntoUnitCube r) = Ok false /\
  (do r <- R_deg_points [2] half_arc arc_weights; R_FitsIntoUnitCube r) = Ok true.
Proof. replay. Qed.

(** tests/point_test/point_test.cpp:61-76 *)
Example replay_points :
  same (value (point_add (p3 (z 2) (z 3) (z 2)) (p3 (z (-1)) (z (-1)) (z 1)))) (value (Ok (p3 (z 1) (z 2) (z 3)))) /\
  same (value (point_sub (p3 (z 1) (z 2) (z 3)) (p3 (z 2) (z 3) (z 2)))) (value (Ok (p3 (z (-1)) (z (-1)) (z 1)))) /\
  same (value (point_scale (p3 (z 1) (z 2) (z 3)) (z 3))) (value (Ok (p3 (z 3) (z 6) (z 9)))) /\
  same (value (point_neg (p3 (z 1) (z 2) (z 3)))) (value (Ok (p3 (z (-1)) (z (-2)) (z (-3))))) /\
  same (value (point_div (p2 (z 2) (z 5)) (z 2))) (value (Ok (p2 (z 1) (q 5 2)))) /\
  same (value (scalar_div_point (z 2) (p2 (z 2) (z 5)))) (value (Ok (p2 (z 1) (q 2 5)))) /\
  same (value (point_div_assign (p2 (z 2) (z 5)) (z 5))) (value (Ok (p2 (q 2 5) (z 1)))).
Proof. replay. Qed.

(** tests/io/base64/base64_test.cpp:52-58 ([int] entries, little-endian) *)
Definition test_ints : list (list N) :=
  [[1; 0; 0; 0]; [4; 0; 0; 0]; [253; 255; 255; 255]; [5; 0; 0; 0]; [10; 0; 0; 0]; [2; 0; 0; 0]]%N.
Example replay_base64 :
  Encode 4 test_ints [] = Ok (list_ascii_of_string "AQAAAAQAAAD9////BQAAAAoAAAACAAAA") /\
  Decode 4 (list_ascii_of_string "AQAAAAQAAAD9////BQAAAAoAAAACAAAA") = Ok test_ints.
Proof. replay. Qed.
