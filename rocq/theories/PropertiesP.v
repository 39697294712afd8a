(** Properties C65, C66: the Euclidian norm and points with integral coordinates. *)
From Coq Require Import Arith Lia List ZArith Reals Lra.
From Verif Require Import Prelude Scalar Spec Coord ModelPoint ModelNorm ClaimsP.
Import ListNotations.
Local Open Scope nat_scope.

(** C65: EuclidianNorm is the Euclidian norm. *)
Theorem C65_norm : forall (d : nat) (p : point R d),
  exists n, point_norm p = Ok n /\ (0 <= n)%R /\ (n * n = ssum d (fun k => coord d p k * coord d p k))%R /\
    (n = 0%R <-> p = v0).
Proof. exact c65_norm. Qed.
Print Assumptions C65_norm.
Theorem C65_scale : forall (d : nat) (p : point R d) (c : R),
  exists q n, point_scale p c = Ok q /\ point_norm p = Ok n /\ point_norm q = Ok (Rabs c * n)%R.
Proof. exact c65_scale. Qed.
Print Assumptions C65_scale.
Theorem C65_triangle : forall (d : nat) (p q : point R d),
  exists r x m n, point_add p q = Ok r /\ point_norm p = Ok m /\ point_norm q = Ok n /\ point_norm r = Ok x /\
    (x <= m + n)%R.
Proof. exact c65_triangle. Qed.
Print Assumptions C65_triangle.
Theorem C65_cauchy_schwarz : forall (d : nat) (p q : point R d),
  exists x m n, point_dot p q = Ok x /\ point_norm p = Ok m /\ point_norm q = Ok n /\ (Rabs x <= m * n)%R.
Proof. exact c65_cauchy_schwarz. Qed.
Print Assumptions C65_cauchy_schwarz.
Example C65_case : let p : point R 2 := (3, (4, tt))%R in p <> v0 /\ point_norm p = Ok 5%R.
Proof.
  split; [intros H; injection H; lra|].
  unfold point_norm, point_sqnorm. cbn. f_equal. replace (R0 + 3 * 3 + 4 * 4)%R with (5 * 5)%R by (change R0 with 0%R; ring).
  apply sqrt_square. lra.
Qed.

(** C66: division of a point with integral coordinates. *)
Theorem C66_integer_division_refuted : exists (p : point Z 2) (c : Z) q,
  (forall k, k < 2 -> (c | nth k (plist 2 p) 0)%Z) /\ zpoint_div p c = Ok q /\
  ~ (forall k, k < 2 -> (nth k (plist 2 q) 0 * c = nth k (plist 2 p) 0)%Z).
Proof. exact c66_integer_division_refuted. Qed.
Print Assumptions C66_integer_division_refuted.
Theorem C66_integer_division : forall (d : nat) (p : point Z d) (c : Z),
  (c = 0%Z -> zpoint_div p c = UB) /\
  (c = 1%Z \/ c = (-1)%Z -> zpoint_div p c = Ok (pmap d (fun x => Z.quot x c) p)) /\
  ((2 <= Z.abs c)%Z -> zpoint_div p c = Ok (pconst d 0%Z)).
Proof. exact c66_integer_division. Qed.
Print Assumptions C66_integer_division.
Example C66_case : zpoint_div (d := 3) (7, (-8, (9, tt)))%Z (-1) = Ok (-7, (8, (-9, tt)))%Z /\
  zpoint_div (d := 3) (7, (-8, (9, tt)))%Z (-2) = Ok (0, (0, (0, tt)))%Z.
Proof. split; reflexivity. Qed.
