(** Property C77: laws of composition. *)
From Coq Require Import Arith Lia List ZArith NArith Bool QArith Qcanon.
From Verif Require Import Prelude Scalar Spec SpecSpline Coord ModelBasis ModelSpline ModelPoint ModelRational
  Examples PropertiesE ClaimsY.
Import ListNotations.
Local Open Scope nat_scope.

(** C77: composition is associative and respects the other operations. *)
Theorem C77_associative : forall (T V : Type) (o : SOps T) (ov : VOps T V) (F : SField T) (M : VMod T V) (O : SOrder T)
  (MAXB : nat) (f : spline V) (g : spline (point T (length (degrees f)))) (h : spline (point T (length (degrees g)))),
  MAXB <= 68 -> wf f -> wf g -> wf h ->
  (forall p k, In p (control_points g) -> k < length (degrees f) -> in_unit (coord _ p k)) ->
  (forall p k, In p (control_points h) -> k < length (degrees g) -> in_unit (coord _ p k)) ->
  Forall (fun p => p < MAXB) (degrees f) -> Forall (fun p => p < MAXB) (degrees g) ->
  Forall (fun p => list_sum (degrees f) * p < MAXB) (degrees g) ->
  Forall (fun p => list_sum (degrees g) * p < MAXB) (degrees h) ->
  Forall (fun p => list_sum (degrees f) * list_sum (degrees g) * p < MAXB) (degrees h) ->
  exists fg gh r, Compose MAXB f g = Ok fg /\ Compose MAXB g h = Ok gh /\
    Compose MAXB fg h = Ok r /\ Compose MAXB f gh = Ok r.
Proof. exact c77_associative. Qed.
Print Assumptions C77_associative.
Theorem C77_linear : forall (T V : Type) (o : SOps T) (ov : VOps T V) (F : SField T) (M : VMod T V) (O : SOrder T)
  (MAXB : nat) (a b : spline V) (inner : spline (point T (length (degrees a)))) (c : T),
  MAXB <= 68 -> wf a -> wf b -> wf inner -> degrees b = degrees a ->
  (forall p k, In p (control_points inner) -> k < length (degrees a) -> in_unit (coord _ p k)) ->
  Forall (fun p => list_sum (degrees a) * p < MAXB) (degrees inner) -> Forall (fun p => p < MAXB) (degrees a) ->
  (Z.of_nat (n_coeffs (degrees a)) < 2 ^ 31)%Z ->
  (Z.of_nat (n_coeffs (map (Nat.mul (list_sum (degrees a))) (degrees inner))) < 2 ^ 31)%Z ->
  exists ab ca ai bi r cr, returns (fun fuel => spline_add (T := T) fuel a b) ab /\ spline_scale a c = Ok ca /\
    Compose MAXB a inner = Ok ai /\ Compose MAXB b inner = Ok bi /\
    returns (fun fuel => spline_add (T := T) fuel ai bi) r /\ Compose MAXB ab inner = Ok r /\
    spline_scale ai c = Ok cr /\ Compose MAXB ca inner = Ok cr.
Proof. exact c77_linear. Qed.
Print Assumptions C77_linear.
Theorem C77_product : forall (T V : Type) (o : SOps T) (ov : VOps T V) (F : SField T) (M : VMod T V) (O : SOrder T)
  (MAXB : nat) (a : spline T) (b : spline V) (inner : spline (point T (length (degrees a)))) (n : nat),
  MAXB <= 68 -> wf a -> wf b -> wf inner -> length (degrees b) = length (degrees a) ->
  (forall p k, In p (control_points inner) -> k < length (degrees a) -> in_unit (coord _ p k)) ->
  (Forall (fun p => p < MAXB) (map2 Nat.add (degrees a) (degrees b)) ->
   Forall (fun p => (list_sum (degrees a) + list_sum (degrees b)) * p < MAXB) (degrees inner) ->
   exists ab ai bi r, spline_mul_sv MAXB a b = Ok ab /\ Compose MAXB a inner = Ok ai /\ Compose MAXB b inner = Ok bi /\
     spline_mul_sv MAXB ai bi = Ok r /\ Compose MAXB ab inner = Ok r) /\
  (0 < n -> Forall (fun p => n * p < MAXB) (degrees a) ->
   Forall (fun p => n * list_sum (degrees a) * p < MAXB) (degrees inner) ->
   exists an ai r, RaisePower MAXB a n = Ok an /\ Compose MAXB a inner = Ok ai /\
     RaisePower MAXB ai n = Ok r /\ Compose MAXB an inner = Ok r).
Proof. exact c77_product. Qed.
Print Assumptions C77_product.
Theorem C77_extract : forall (T : Type) (o : SOps T) (F : SField T) (O : SOrder T) (MAXB d k : nat)
  (outer : spline (point T d)) (inner : spline (point T (length (degrees outer)))),
  MAXB <= 68 -> wf outer -> wf inner -> k < d ->
  (forall p k, In p (control_points inner) -> k < length (degrees outer) -> in_unit (coord _ p k)) ->
  Forall (fun p => list_sum (degrees outer) * p < MAXB) (degrees inner) -> Forall (fun p => p < MAXB) (degrees outer) ->
  exists ok r rk, ExtractDimension outer k = Ok ok /\ Compose MAXB outer inner = Ok r /\
    ExtractDimension r k = Ok rk /\ Compose MAXB ok inner = Ok rk.
Proof. exact c77_extract. Qed.
Print Assumptions C77_extract.
Theorem C77_split : forall (T V : Type) (o : SOps T) (ov : VOps T V) (F : SField T) (M : VMod T V) (O : SOrder T)
  (MAXB k : nat) (x : T) (outer : spline V) (inner : spline (point T (length (degrees outer)))),
  MAXB <= 68 -> wf outer -> wf inner -> k < length (degrees inner) -> slt s0 x -> slt x s1 ->
  (forall p k, In p (control_points inner) -> k < length (degrees outer) -> in_unit (coord _ p k)) ->
  Forall (fun p => list_sum (degrees outer) * p < MAXB) (degrees inner) -> Forall (fun p => p < MAXB) (degrees outer) ->
  exists i1 i2 r r1 r2, SplitAtPosition inner x k = Ok [i1; i2] /\ Compose MAXB outer inner = Ok r /\
    SplitAtPosition r x k = Ok [r1; r2] /\ Compose MAXB outer i1 = Ok r1 /\ Compose MAXB outer i2 = Ok r2.
Proof. exact c77_split. Qed.
Print Assumptions C77_split.
Theorem C77_identity : forall (T V : Type) (o : SOps T) (ov : VOps T V) (F : SField T) (M : VMod T V) (O : SOrder T)
  (MAXB p : nat) (f : spline V) (g : spline (point T 1)), 1 < MAXB <= 68 ->
  wf f -> degrees f = [p] -> p < MAXB -> wf g -> Forall (fun p => p < MAXB) (degrees g) ->
  (forall q k, In q (control_points g) -> k < 1 -> in_unit (coord _ q k)) ->
  exists id : spline (point T 1), Spline_deg_points [1] [(s0, tt); (s1, tt)] = Ok id /\
    Compose MAXB f id = Ok f /\ Compose MAXB id g = Ok g.
Proof. exact c77_identity. Qed.
Print Assumptions C77_identity.
(** A bilinear outer spline, a line in the unit square and a parabola in the unit interval. *)
Definition ex_77 : spline (point Qc 1) := mkSpline [2] 3 [1] [(Q2Qc 0, tt); (Q2Qc 1, tt); (Q2Qc (1 # 2), tt)].
Example C77_case : wf ex_outer /\ wf ex_inner /\ wf ex_77 /\
  Forall (fun p => list_sum (degrees ex_outer) * list_sum (degrees ex_inner) * p < 5) (degrees ex_77) /\
  (exists fg gh r, Compose 5 ex_outer ex_inner = Ok fg /\ Compose 5 ex_inner ex_77 = Ok gh /\
     Compose 5 fg ex_77 = Ok r /\ Compose 5 ex_outer gh = Ok r /\ degrees r = [4]) /\
  (exists i1 i2 r r1 r2, SplitAtPosition ex_inner (Q2Qc (1 # 4)) 0 = Ok [i1; i2] /\ Compose 5 ex_outer ex_inner = Ok r /\
     SplitAtPosition r (Q2Qc (1 # 4)) 0 = Ok [r1; r2] /\ Compose 5 ex_outer i1 = Ok r1 /\ Compose 5 ex_outer i2 = Ok r2) /\
  (exists id : spline (point Qc 1), Spline_deg_points [1] [(Q2Qc 0, tt); (Q2Qc 1, tt)] = Ok id /\ Compose 5 ex_inner id = Ok ex_inner).
Proof.
  do 4 (split; [case_|]). split; [do 3 eexists; repeat (split; [vm_compute; reflexivity|]); case_|].
  split; [do 5 eexists; repeat (split; [vm_compute; reflexivity|]); case_|].
  eexists. split; [vm_compute; reflexivity|]. case_.
Qed.
