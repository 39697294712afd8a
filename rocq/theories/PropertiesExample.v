(** Property C80: the example program of example/Microstructure. *)
From Coq Require Import Arith Lia List Reals Lra.
From Verif Require Import Prelude Scalar ModelBasis ModelSpline ModelRational SpecSpline SpecRational
  ModelExample SpecExample ProofExample ClaimsExample.
Import ListNotations.
Local Open Scope R_scope.

(** C80: the tile is the cross, the segments make up the ring, and the program puts the crosses
    into the ring. *)
Theorem C80_tile : forall t : R, let a := / 2 - t / 2 in let b := / 2 + t / 2 in
  exists center left right down up, SimpleCrossTile t = Ok [center; left; right; down; up] /\
    rectangle a b a b center /\ rectangle 0 a a b left /\ rectangle b 1 a b right /\
    rectangle a b 0 a down /\ rectangle a b b 1 up.
Proof. exact c80_tile. Qed.
Print Assumptions C80_tile.
Theorem C80_tile_fits : forall (t : R) (tiles : list (spline (point R 2))), SimpleCrossTile t = Ok tiles ->
  (Forall (fun s => FitsIntoUnitCube s = Ok true) tiles <-> -1 <= t <= 1) /\
  (-1 <= t <= 1 \/ Forall (fun s => FitsIntoUnitCube s = Ok false) tiles).
Proof. exact c80_tile_fits. Qed.
Print Assumptions C80_tile_fits.
Theorem C80_cross : forall (t : R) (tiles : list (spline (point R 2))), SimpleCrossTile t = Ok tiles -> 0 <= t <= 1 ->
  forall x y, in_cross t x y <->
    exists s u v, In s tiles /\ unit_real u /\ unit_real v /\ Evaluate s [u; v] = Ok (Point2D x y).
Proof. exact c80_cross. Qed.
Print Assumptions C80_cross.
Theorem C80_disjoint : forall (t : R) (tiles : list (spline (point R 2))), SimpleCrossTile t = Ok tiles -> 0 < t < 1 ->
  forall i j si sj u v u' v' p, nth_error tiles i = Some si -> nth_error tiles j = Some sj ->
    0 < u < 1 -> 0 < v < 1 -> 0 < u' < 1 -> 0 < v' < 1 ->
    Evaluate si [u; v] = Ok p -> Evaluate sj [u'; v'] = Ok p -> i = j /\ u = u' /\ v = v'.
Proof. exact c80_disjoint. Qed.
Print Assumptions C80_disjoint.
Theorem C80_ring : forall (innerR outerR arc : R) (n : nat), (0 < n)%nat -> - PI < arc / INR n < PI ->
  exists segs, CircleGroup innerR outerR n arc = Ok segs /\ length segs = n /\
    forall k r, nth_error segs k = Some r -> ring_segment innerR outerR (arc / INR n) k r.
Proof. exact c80_ring. Qed.
Print Assumptions C80_ring.
Theorem C80_joins : forall (innerR outerR arc : R) (n : nat) segs, (0 < n)%nat -> - PI < arc / INR n < PI ->
  CircleGroup innerR outerR n arc = Ok segs ->
  forall k r, nth_error segs k = Some r -> forall v,
    R_Evaluate r [0; v] = Ok (polar ((1 - v) * outerR + v * innerR) (arc / INR n * INR k)) /\
    R_Evaluate r [1; v] = Ok (polar ((1 - v) * outerR + v * innerR) (arc / INR n * INR (S k))) /\
    (forall r', nth_error segs (S k) = Some r' -> R_Evaluate r' [0; v] = R_Evaluate r [1; v]) /\
    (forall r' z, nth_error segs 0 = Some r' -> S k = n -> arc = 2 * IZR z * PI ->
       R_Evaluate r' [0; v] = R_Evaluate r [1; v]).
Proof. exact c80_joins. Qed.
Print Assumptions C80_joins.
Theorem C80_composition : forall (MAXB : nat) (innerR outerR arc t : R) (n : nat) segs tiles,
  (3 < MAXB <= 68)%nat -> (0 < n)%nat -> - PI < arc / INR n < PI -> -1 <= t <= 1 ->
  CircleGroup innerR outerR n arc = Ok segs -> SimpleCrossTile t = Ok tiles ->
  exists out, compose_all MAXB segs tiles = Ok out /\ length out = (5 * n)%nat /\
    forall k j r s, nth_error segs k = Some r -> nth_error tiles j = Some s ->
      exists c, nth_error out (5 * k + j) = Some c /\ rwf c /\ rdegrees c = [3; 3]%nat /\
        forall u v, exists x y, Evaluate s [u; v] = Ok (Point2D x y) /\ R_Evaluate c [u; v] = R_Evaluate r [x; y].
Proof. exact c80_composition. Qed.
Print Assumptions C80_composition.
Theorem C80_program : forall MAXB : nat, (3 < MAXB <= 68)%nat ->
  exists out segs, microstructure MAXB = Ok out /\ length out = 20%nat /\ Forall rwf out /\
    Forall (fun c => rdegrees c = [3; 3]%nat) out /\ CircleGroup 1 2 4 (2 * PI) = Ok segs /\
    (forall c u v, In c out -> unit_real u -> unit_real v ->
       exists rho a, R_Evaluate c [u; v] = Ok (polar rho a) /\ 1 <= rho <= 2) /\
    (forall p, (exists c u v, In c out /\ unit_real u /\ unit_real v /\ R_Evaluate c [u; v] = Ok p) <->
       (exists r x y, In r segs /\ in_cross (3 / 10) x y /\ R_Evaluate r [x; y] = Ok p)).
Proof. exact c80_program. Qed.
Print Assumptions C80_program.
(** Segments of half a turn or more do not work. *)
Theorem C80_few_segments : forall innerR outerR : R,
  CircleGroup innerR outerR 2 (2 * PI) = NonFinite /\
  exists r, CircleGroup innerR outerR 1 (2 * PI) = Ok [r] /\ forall v, R_Evaluate r [/ 2; v] = NonFinite.
Proof. exact c80_few_segments. Qed.
Print Assumptions C80_few_segments.
Example C80_case :
  (0 < 4)%nat /\ - PI < 2 * PI / INR 4 < PI /\ in_cross (3 / 10) (1 / 2) (9 / 10) /\ ~ in_cross (3 / 10) (1 / 5) (9 / 10) /\
  exists segs r, CircleGroup 1 2 4 (2 * PI) = Ok segs /\ nth_error segs 1 = Some r /\
    R_Evaluate r [0; 0] = Ok (Point2D 0 2) /\ R_Evaluate r [1; 1] = Ok (Point2D (-1) 0).
Proof.
  assert (Hd : - PI < 2 * PI / INR 4 < PI) by (pose proof PI_RGT_0; replace (INR 4) with 4 by (cbn; ring); lra).
  split; [lia|]. split; [exact Hd|]. unfold in_cross, unit_real. split; [left; rewrite Rabs_bounds; lra|].
  split; [rewrite !Rabs_bounds; lra|].
  destruct (c80_ring 1 2 (2 * PI) 4 ltac:(lia) Hd) as (segs & E & HL & _).
  destruct (nth_error segs 1) as [r|] eqn:Er; [|apply nth_error_None in Er; lia].
  exists segs, r. do 2 (split; [assumption|]).
  pose proof (c80_joins 1 2 (2 * PI) 4 segs ltac:(lia) Hd E 1%nat r Er) as HJ.
  split; [rewrite (proj1 (HJ 0))|rewrite (proj1 (proj2 (HJ 1)))]; unfold polar.
  - replace (2 * PI / INR 4 * INR 1) with (PI / 2) by (cbn; field). rewrite cos_PI2, sin_PI2. unfold Point2D. repeat f_equal; ring.
  - replace (2 * PI / INR 4 * INR 2) with PI by (cbn; field). rewrite cos_PI, sin_PI. unfold Point2D. repeat f_equal; ring.
Qed.
