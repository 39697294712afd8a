(** Model of example/Microstructure/microstructure_build.cpp with exact real numbers.

    The file does not compile as it is (the header src/utils/export.hpp does not exist, and
    [std::vector test_composition;] at line 126 lacks its type argument); the model is the program
    with a vector of rational splines there. *)
From Coq Require Import Arith List ZArith Reals.
From Verif Require Import Prelude Scalar ModelBasis ModelSpline ModelRational.
Import ListNotations.
Local Open Scope R_scope.

Definition Point2D (x y : R) : point R 2 := (x, (y, tt)).

(** example/Microstructure/microstructure_build.cpp:44-78  SimpleCrossTile *)
Definition SimpleCrossTile (thickness : R) : res (list (spline (point R 2))) :=
  let lo := / 2 - / 2 * thickness in
  let hi := / 2 + / 2 * thickness in
  let degrees := [1; 1]%nat in
  do center <- Spline_deg_points degrees [Point2D lo lo; Point2D hi lo; Point2D lo hi; Point2D hi hi];
  do left <- Spline_deg_points degrees [Point2D 0 lo; Point2D lo lo; Point2D 0 hi; Point2D lo hi];
  do right <- Spline_deg_points degrees [Point2D hi lo; Point2D 1 lo; Point2D hi hi; Point2D 1 hi];
  do down <- Spline_deg_points degrees [Point2D lo 0; Point2D hi 0; Point2D lo lo; Point2D hi lo];
  do up <- Spline_deg_points degrees [Point2D lo hi; Point2D hi hi; Point2D lo 1; Point2D hi 1];
  Ok [center; left; right; down; up].

(** example/Microstructure/microstructure_build.cpp:83-113  CircleGroup. [segments] is an [int]
    here assumed not to be negative; without segments the quotient of line 88 is not finite, but it
    is not used. *)
Definition CircleGroup (innerR outerR : R) (segments : nat) (arc_degrees : R)
  : res (list (rspline R (point R 2))) :=
  let default := mkSpline [0; 0]%nat 0%nat [0; 0]%nat [] in
  let ringsegments := repeat (mkR default (mkSpline [0; 0]%nat 0%nat [0; 0]%nat [])) segments in
  if (segments =? 0)%nat then Ok ringsegments else
  do degrees_per_segment <- divS arc_degrees (sofnat segments);
  let single_weight := sin (PI / 2 - degrees_per_segment / 2) in
  do outdor_fact <- divS 1 single_weight;
  let weights := [1; single_weight; 1; 1; single_weight; 1] in
  for_up 0 segments (fun i_segment ringsegments =>
    let i := (sofnat i_segment : R) in
    let startsin := sin (degrees_per_segment * i) in
    let startcos := cos (degrees_per_segment * i) in
    let middlesin := sin (degrees_per_segment * (i + / 2)) in
    let middlecos := cos (degrees_per_segment * (i + / 2)) in
    let endsin := sin (degrees_per_segment * (i + 1)) in
    let endcos := cos (degrees_per_segment * (i + 1)) in
    let ctps := [Point2D (startcos * outerR) (startsin * outerR);
                 Point2D (middlecos * outdor_fact * outerR) (middlesin * outdor_fact * outerR);
                 Point2D (endcos * outerR) (endsin * outerR);
                 Point2D (startcos * innerR) (startsin * innerR);
                 Point2D (middlecos * outdor_fact * innerR) (middlesin * outdor_fact * innerR);
                 Point2D (endcos * innerR) (endsin * innerR)] in
    do r <- R_deg_points [2; 1]%nat ctps weights;
    set ringsegments i_segment r) ringsegments.

(** The loops of example/Microstructure/microstructure_build.cpp:128-132 *)
Definition compose_all (MAXB : nat) (deformation_function : list (rspline R (point R 2)))
  (microtile : list (spline (point R 2))) : res (list (rspline R (point R 2))) :=
  for_up 0 (length deformation_function) (fun i out =>
    do def <- get deformation_function i;
    for_up 0 (length microtile) (fun j out =>
      do inner <- get microtile j;
      do c <- Compose_RP MAXB def inner;
      Ok (out ++ [c])) out) [].

(** example/Microstructure/microstructure_build.cpp:115-137  main, up to the output *)
Definition microstructure (MAXB : nat) : res (list (rspline R (point R 2))) :=
  do microtile <- SimpleCrossTile (3 / 10);
  do deformation_function <- CircleGroup 1 2 4 (2 * PI);
  compose_all MAXB deformation_function microtile.
