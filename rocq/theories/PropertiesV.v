(** Property C74: the algebraic laws of the operators, at the level of the stored control points. *)
From Coq Require Import Arith Lia List ZArith NArith Bool QArith Qcanon.
From Verif Require Import Prelude Scalar Spec SpecSpline Coord ModelBasis ModelSpline ModelPoint ModelRational Examples
  PropertiesD ClaimsV.
Import ListNotations.
Local Open Scope nat_scope.

(** C74: sums, products and powers form a commutative ring acting on point-valued splines. *)
Theorem C74_add_comm : forall (T V : Type) (o : SOps T) (ov : VOps T V) (F : SField T) (M : VMod T V)
  (a b : spline V), wf a -> wf b -> length (degrees a) = length (degrees b) ->
  (Z.of_nat (n_coeffs (map2 Nat.max (degrees a) (degrees b))) < 2 ^ 31)%Z ->
  exists r, returns (fun fuel => spline_add fuel a b) r /\ returns (fun fuel => spline_add fuel b a) r.
Proof. exact c74_add_comm. Qed.
Print Assumptions C74_add_comm.
Theorem C74_add_assoc : forall (T V : Type) (o : SOps T) (ov : VOps T V) (F : SField T) (M : VMod T V)
  (a b c : spline V), wf a -> wf b -> wf c -> length (degrees b) = length (degrees a) ->
  length (degrees c) = length (degrees a) ->
  (Z.of_nat (n_coeffs (map2 Nat.max (map2 Nat.max (degrees a) (degrees b)) (degrees c))) < 2 ^ 31)%Z ->
  exists ab bc r, returns (fun fuel => spline_add fuel a b) ab /\ returns (fun fuel => spline_add fuel b c) bc /\
    returns (fun fuel => spline_add fuel ab c) r /\ returns (fun fuel => spline_add fuel a bc) r.
Proof. exact c74_add_assoc. Qed.
Print Assumptions C74_add_assoc.
Theorem C74_negation : forall (T V : Type) (o : SOps T) (ov : VOps T V) (F : SField T) (M : VMod T V) (a : spline V),
  wf a -> (Z.of_nat (n_coeffs (degrees a)) < 2 ^ 31)%Z ->
  exists n z, spline_neg (T := T) a = Ok n /\ spline_neg (T := T) n = Ok a /\
    returns (fun fuel => spline_add (T := T) fuel a n) z /\ degrees z = degrees a /\
    Forall (fun p => p = v0) (control_points z).
Proof. exact c74_negation. Qed.
Print Assumptions C74_negation.
Theorem C74_scaling : forall (T V : Type) (o : SOps T) (ov : VOps T V) (F : SField T) (M : VMod T V) (a b : spline V) (x y : T),
  wf a -> wf b -> length (degrees a) = length (degrees b) ->
  (Z.of_nat (n_coeffs (map2 Nat.max (degrees a) (degrees b))) < 2 ^ 31)%Z ->
  exists ab xab xa xb ya xya sxa, returns (fun fuel => spline_add fuel a b) ab /\ spline_scale ab x = Ok xab /\
    spline_scale a x = Ok xa /\ spline_scale b x = Ok xb /\ returns (fun fuel => spline_add fuel xa xb) xab /\
    spline_scale a y = Ok ya /\ spline_scale ya x = Ok xya /\ spline_scale a (smul x y) = Ok xya /\
    spline_scale a (sadd x y) = Ok sxa /\ returns (fun fuel => spline_add fuel xa ya) sxa /\ spline_scale a s1 = Ok a.
Proof. exact c74_scaling. Qed.
Print Assumptions C74_scaling.
Theorem C74_mul_comm : forall (T : Type) (o : SOps T) (F : SField T) (MAXB : nat) (P Q : spline T),
  MAXB <= 68 -> wf P -> wf Q -> length (degrees Q) = length (degrees P) ->
  Forall (fun p => p < MAXB) (map2 Nat.add (degrees P) (degrees Q)) ->
  exists r, spline_mul_ss MAXB P Q = Ok r /\ spline_mul_ss MAXB Q P = Ok r.
Proof. exact c74_mul_comm. Qed.
Print Assumptions C74_mul_comm.
Theorem C74_mul_assoc : forall (T V : Type) (o : SOps T) (ov : VOps T V) (F : SField T) (M : VMod T V) (MAXB : nat)
  (P Q : spline T) (S : spline V), MAXB <= 68 -> wf P -> wf Q -> wf S ->
  length (degrees Q) = length (degrees P) -> length (degrees S) = length (degrees P) ->
  Forall (fun p => p < MAXB) (map2 Nat.add (map2 Nat.add (degrees P) (degrees Q)) (degrees S)) ->
  exists pq qs r, spline_mul_ss MAXB P Q = Ok pq /\ spline_mul_sv MAXB Q S = Ok qs /\
    spline_mul_sv MAXB pq S = Ok r /\ spline_mul_sv MAXB P qs = Ok r.
Proof. exact c74_mul_assoc. Qed.
Print Assumptions C74_mul_assoc.
Theorem C74_mul_one : forall (T V : Type) (o : SOps T) (ov : VOps T V) (F : SField T) (M : VMod T V) (MAXB : nat)
  (S : spline V), MAXB <= 68 -> wf S -> Forall (fun p => p < MAXB) (degrees S) ->
  exists one, Spline_deg_points (repeat 0 (length (degrees S))) [s1] = Ok one /\ spline_mul_sv MAXB one S = Ok S.
Proof. exact c74_mul_one. Qed.
Print Assumptions C74_mul_one.
Theorem C74_distributive : forall (T V : Type) (o : SOps T) (ov : VOps T V) (F : SField T) (M : VMod T V) (MAXB : nat)
  (C : spline T) (P Q : spline V), MAXB <= 68 -> wf C -> wf P -> wf Q ->
  length (degrees P) = length (degrees C) -> length (degrees Q) = length (degrees C) ->
  Forall (fun p => p < MAXB) (map2 Nat.add (degrees C) (degrees P)) ->
  Forall (fun p => p < MAXB) (map2 Nat.add (degrees C) (degrees Q)) ->
  (Z.of_nat (n_coeffs (map2 Nat.add (degrees C) (map2 Nat.max (degrees P) (degrees Q)))) < 2 ^ 31)%Z ->
  exists pq cp cq r, returns (fun fuel => spline_add fuel P Q) pq /\ spline_mul_sv MAXB C P = Ok cp /\
    spline_mul_sv MAXB C Q = Ok cq /\ spline_mul_sv MAXB C pq = Ok r /\
    returns (fun fuel => spline_add fuel cp cq) r /\ spline_mul_vs MAXB pq C = Ok r.
Proof. exact c74_distributive. Qed.
Print Assumptions C74_distributive.
Theorem C74_dot : forall (T : Type) (o : SOps T) (F : SField T) (MAXB d : nat) (P Q S : spline (point T d)),
  MAXB <= 68 -> wf P -> wf Q -> wf S -> length (degrees Q) = length (degrees P) -> length (degrees S) = length (degrees P) ->
  Forall (fun p => p < MAXB) (map2 Nat.add (degrees P) (degrees Q)) ->
  Forall (fun p => p < MAXB) (map2 Nat.add (degrees P) (degrees S)) ->
  (Z.of_nat (n_coeffs (map2 Nat.add (degrees P) (map2 Nat.max (degrees Q) (degrees S)))) < 2 ^ 31)%Z ->
  let mul := spline_mul MAXB (fun p q => ssum d (fun k => smul (coord d p k) (coord d q k))) in
  exists qs pq ps r, returns (fun fuel => spline_add fuel Q S) qs /\ mul P Q = Ok pq /\ mul P S = Ok ps /\
    mul Q P = Ok pq /\ mul P qs = Ok r /\ returns (fun fuel => spline_add fuel pq ps) r.
Proof. exact c74_dot. Qed.
Print Assumptions C74_dot.
Theorem C74_power : forall (T : Type) (o : SOps T) (F : SField T) (MAXB m n : nat) (P Q : spline T),
  MAXB <= 68 -> wf P -> wf Q -> length (degrees Q) = length (degrees P) ->
  (Forall (fun p => (m + n) * p < MAXB) (degrees P) ->
    exists a b r, RaisePower MAXB P m = Ok a /\ RaisePower MAXB P n = Ok b /\ RaisePower MAXB P (m + n) = Ok r /\
      spline_mul_ss MAXB a b = Ok r) /\
  (Forall (fun p => m * n * p < MAXB) (degrees P) -> 0 < n ->
    exists a r, RaisePower MAXB P m = Ok a /\ RaisePower MAXB a n = Ok r /\ RaisePower MAXB P (m * n) = Ok r) /\
  (Forall (fun p => n * p < MAXB) (map2 Nat.add (degrees P) (degrees Q)) -> 0 < n ->
    exists pq a b r, spline_mul_ss MAXB P Q = Ok pq /\ RaisePower MAXB P n = Ok a /\ RaisePower MAXB Q n = Ok b /\
      RaisePower MAXB pq n = Ok r /\ spline_mul_ss MAXB a b = Ok r).
Proof. exact c74_power. Qed.
Print Assumptions C74_power.
(** Splines of degrees (1, 1) and (0, 1): the two sides of a law are computed separately. *)
Definition ex_74 : spline Qc := mkSpline [1; 0] 2 [1; 2] (map (fun z => Q2Qc (inject_Z z)) [5; -3]%Z).
Example C74_case :
  wf ex_a /\ wf ex_b /\ wf ex_74 /\ wf ex_d /\
  (Z.of_nat (n_coeffs (map2 Nat.max (map2 Nat.max (degrees ex_a) (degrees ex_b)) (degrees ex_74))) < 2 ^ 31)%Z /\
  Forall (fun p => p < 4) (map2 Nat.add (map2 Nat.add (degrees ex_b) (degrees ex_74)) (degrees ex_d)) /\
  (exists ab bc r, spline_add (T := Qc) 9 ex_a ex_b = Ok ab /\ spline_add (T := Qc) 9 ex_b ex_74 = Ok bc /\
     spline_add (T := Qc) 9 ab ex_74 = Ok r /\ spline_add (T := Qc) 9 ex_a bc = Ok r /\
     map (fun c : Qc => this c) (control_points r) = [8; -3; 7; 0]%Q) /\
  (exists pq qs r, spline_mul_ss (T := Qc) 4 ex_b ex_74 = Ok pq /\ spline_mul_sv (T := Qc) 4 ex_74 ex_d = Ok qs /\
     spline_mul_sv (T := Qc) 4 pq ex_d = Ok r /\ spline_mul_sv (T := Qc) 4 ex_b qs = Ok r /\ degrees r = [1; 2]) /\
  (exists a r, RaisePower (T := Qc) 4 ex_b 2 = Ok a /\ spline_mul_ss (T := Qc) 4 ex_b a = Ok r /\
     RaisePower (T := Qc) 4 ex_b 3 = Ok r).
Proof.
  do 6 (split; [case_|]). split; [do 3 eexists; repeat (split; [vm_compute; reflexivity|]); case_|].
  split; [do 3 eexists; repeat (split; [vm_compute; reflexivity|]); case_|].
  do 2 eexists. split; [vm_compute; reflexivity|]. split; [vm_compute; reflexivity|]. case_.
Qed.
