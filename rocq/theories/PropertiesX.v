(** Property C76: control points of refined and composed splines are convex combinations. *)
From Coq Require Import Arith Lia List ZArith NArith Bool QArith Qcanon.
From Verif Require Import Prelude Scalar Spec SpecSpline Coord ModelBasis ModelSpline ModelRational SpecRational
  SpecHull Examples PropertiesE ClaimsX.
Import ListNotations.
Local Open Scope nat_scope.

(** C76: values and control points stay in the convex hull of the control points. *)
Theorem C76_evaluate : forall (T V : Type) (o : SOps T) (ov : VOps T V) (F : SField T) (M : VMod T V) (O : SOrder T)
  (s : spline V) (xs : list T), wf s -> length xs = length (degrees s) -> Forall in_unit xs ->
  exists p, Evaluate s xs = Ok p /\ convex (T := T) (control_points s) p.
Proof. exact c76_evaluate. Qed.
Print Assumptions C76_evaluate.
Theorem C76_order_elevate : forall (T V : Type) (o : SOps T) (ov : VOps T V) (F : SField T) (M : VMod T V) (O : SOrder T)
  (s : spline V) (k : nat), wf s -> k < length (degrees s) ->
  (Z.of_nat (n_coeffs (upd_at k S (degrees s))) < 2 ^ 31)%Z ->
  exists r, OrderElevate (T := T) s k = Ok r /\ Forall (convex (T := T) (control_points s)) (control_points r).
Proof. exact c76_order_elevate. Qed.
Print Assumptions C76_order_elevate.
Theorem C76_split : forall (T V : Type) (o : SOps T) (ov : VOps T V) (F : SField T) (M : VMod T V) (O : SOrder T)
  (s : spline V) (planes : list T) (k : nat), wf s -> k < length (degrees s) ->
  let bounds := s0 :: planes ++ [s1] in
  (forall i, S i < length bounds -> slt (nth i bounds s0) (nth (S i) bounds s0)) ->
  (exists parts, SplitAtPositions s planes k = Ok parts /\ length parts = S (length planes) /\
    Forall (fun b => Forall (convex (T := T) (control_points s)) (control_points b)) parts) /\
  forall x, slt s0 x -> slt x s1 -> exists a b, SplitAtPosition s x k = Ok [a; b] /\
    Forall (convex (T := T) (control_points s)) (control_points a) /\
    Forall (convex (T := T) (control_points s)) (control_points b).
Proof. exact c76_split. Qed.
Print Assumptions C76_split.
Theorem C76_compose : forall (T V : Type) (o : SOps T) (ov : VOps T V) (F : SField T) (M : VMod T V) (O : SOrder T)
  (MAXB : nat) (outer : spline V) (inner : spline (point T (length (degrees outer)))),
  MAXB <= 68 -> wf outer -> wf inner ->
  (forall p k, In p (control_points inner) -> k < length (degrees outer) -> in_unit (coord _ p k)) ->
  Forall (fun p => list_sum (degrees outer) * p < MAXB) (degrees inner) ->
  Forall (fun p => p < MAXB) (degrees outer) ->
  exists r ts, Compose MAXB outer inner = Ok r /\ ComposeSensitivity MAXB outer inner = Ok ts /\
    Forall (convex (T := T) (control_points outer)) (control_points r) /\
    length ts = length (control_points outer) /\
    Forall (fun t => degrees t = degrees r /\ Forall (fun c => sle s0 c) (control_points t)) ts /\
    (** the sensitivities are the weights of the combinations *)
    let weight i j := nth j (nth i (map control_points ts) []) s0 in
    forall j, j < length (control_points r) ->
      ssum (length ts) (fun i => weight i j) = s1 /\
      nth j (control_points r) v0 = vsum (length ts) (fun i => vscale (weight i j) (nth i (control_points outer) v0)).
Proof. exact c76_compose. Qed.
Print Assumptions C76_compose.
Theorem C76_bounds : forall (T : Type) (o : SOps T) (F : SField T) (O : SOrder T) (d k : nat) (P : list (point T d))
  (q : point T d) (lo hi : T), k < d -> convex (T := T) P q ->
  (forall p, In p P -> sle lo (coord d p k) /\ sle (coord d p k) hi) ->
  sle lo (coord d q k) /\ sle (coord d q k) hi.
Proof. exact c76_bounds. Qed.
Print Assumptions C76_bounds.
Theorem C76_rational_elevate : forall (T V : Type) (o : SOps T) (ov : VOps T V) (F : SField T) (M : VMod T V) (O : SOrder T)
  (r : rspline T V) (k : nat), rwf r -> k < length (rdegrees r) ->
  (Z.of_nat (n_coeffs (upd_at k S (rdegrees r))) < 2 ^ 31)%Z ->
  Forall (fun w => slt s0 w) (control_points (weight_function r)) ->
  exists r', R_OrderElevate r k = Ok r' /\ Forall (fun w => slt s0 w) (control_points (weight_function r')) /\
    Forall (convex (T := T) (unweighted r)) (unweighted r').
Proof. exact c76_rational_elevate. Qed.
Print Assumptions C76_rational_elevate.
Theorem C76_rational_split : forall (T V : Type) (o : SOps T) (ov : VOps T V) (F : SField T) (M : VMod T V) (O : SOrder T)
  (r : rspline T V) (x : T) (k : nat), rwf r -> k < length (rdegrees r) -> slt s0 x -> slt x s1 ->
  Forall (fun w => slt s0 w) (control_points (weight_function r)) ->
  exists a b, R_SplitAtPosition r x k = Ok [a; b] /\ Forall (fun p =>
    Forall (fun w => slt s0 w) (control_points (weight_function p)) /\
    Forall (convex (T := T) (unweighted r)) (unweighted p)) [a; b].
Proof. exact c76_rational_split. Qed.
Print Assumptions C76_rational_split.
(** A parabola and its elevation, parts and composition with a line; a circular arc with weights 1, 1, 2. *)
Definition ex_76 : spline Qc := mkSpline [2] 3 [1] (map (fun z => Q2Qc (inject_Z z)) [0; 9; 0]%Z).
Definition ex_76r : rspline Qc Qc := mkR
  (mkSpline [2] 3 [1] (map (fun z => Q2Qc (inject_Z z)) [0; 3; 12]%Z))
  (mkSpline [2] 3 [1] (map (fun z => Q2Qc (inject_Z z)) [1; 1; 2]%Z)).
Example C76_case : wf ex_76 /\ wf ex_outer /\ wf ex_inner /\ rwf ex_76r /\
  Forall (fun w => slt s0 w) (control_points (weight_function ex_76r)) /\
  (exists r, OrderElevate (T := Qc) ex_76 0 = Ok r /\ map (fun c : Qc => this c) (control_points r) = [0; 6; 6; 0]%Q) /\
  (exists a b, SplitAtPosition ex_76 (Q2Qc (1 # 3)) 0 = Ok [a; b] /\
     map (fun c : Qc => this c) (control_points a) = [0; 3; 4]%Q /\
     map (fun c : Qc => this c) (control_points b) = [4; 6; 0]%Q) /\
  (exists r ts, Compose 4 ex_outer ex_inner = Ok r /\ ComposeSensitivity 4 ex_outer ex_inner = Ok ts /\
     map (fun c : Qc => this c) (control_points r) = [3; 3; 1]%Q /\
     map (fun t => map (fun c : Qc => this c) (control_points t)) ts =
       [[0; 1 # 4; 0]; [0; 0; 1 # 2]; [1; 1 # 4; 0]; [0; 1 # 2; 1 # 2]]%Q) /\
  (exists r, R_OrderElevate ex_76r 0 = Ok r /\
     map (fun c : Qc => this c) (control_points (weight_function r)) = [1; 1; 4 # 3; 2]%Q /\
     map (fun c : Qc => this c) (unweighted r) = [0; 2; 9 # 2; 6]%Q).
Proof.
  do 4 (split; [case_|]). split; [repeat constructor|].
  split; [eexists; split; [vm_compute; reflexivity|case_]|].
  split; [do 2 eexists; split; [vm_compute; reflexivity|case_]|].
  split; [do 2 eexists; split; [vm_compute; reflexivity|]; split; [vm_compute; reflexivity|]; case_|].
  eexists. split; [vm_compute; reflexivity|]. case_.
Qed.
