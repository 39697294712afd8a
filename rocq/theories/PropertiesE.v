(** Properties C28, C29: composition of polynomial splines. *)
From Coq Require Import Arith Lia List ZArith NArith Bool QArith Qcanon.
From Verif Require Import Prelude Scalar Spec SpecSpline Coord ModelBasis ModelSpline Examples ClaimsE.
Import ListNotations.
Local Open Scope nat_scope.

(** A bilinear outer spline, a line inside the unit square and one that leaves it. *)
Definition ex_outer : spline Qc :=
  mkSpline [1; 1] 4 [1; 2] (map (fun z => Q2Qc (inject_Z z)) [1; -2; 3; 4]%Z).
Definition ex_inner : spline (point Qc 2) :=
  mkSpline [1] 2 [1] [(Q2Qc 0, (Q2Qc 1, tt)); (Q2Qc 1, (Q2Qc (1 # 2), tt))].
Definition ex_leaves : spline (point Qc 2) :=
  mkSpline [1] 2 [1] [(Q2Qc 0, (Q2Qc 1, tt)); (Q2Qc 1, (Q2Qc (3 # 2), tt))].

(** C28: outer.Compose(inner) evaluates to outer(inner(t)). *)
Theorem C28_compose : forall (T V : Type) (o : SOps T) (ov : VOps T V) (F : SField T) (M : VMod T V) (O : SOrder T)
  (MAXB : nat) (outer : spline V) (inner : spline (point T (length (degrees outer)))),
  MAXB <= 68 -> wf outer -> wf inner ->
  (forall p k, In p (control_points inner) -> k < length (degrees outer) -> in_unit (coord _ p k)) ->
  Forall (fun p => list_sum (degrees outer) * p < MAXB) (degrees inner) ->
  Forall (fun p => p < MAXB) (degrees outer) ->
  exists r, Compose MAXB outer inner = Ok r /\ wf r /\
    degrees r = map (fun p => list_sum (degrees outer) * p) (degrees inner) /\
    forall xs : list T, length xs = length (degrees inner) ->
      exists p v, Evaluate inner xs = Ok p /\ Evaluate outer (plist _ p) = Ok v /\ Evaluate r xs = Ok v.
Proof. exact c28_compose. Qed.
Print Assumptions C28_compose.
Theorem C28_compose_outside : forall (T V : Type) (o : SOps T) (ov : VOps T V) (F : SField T) (O : SOrder T)
  (MAXB d : nat) (outer : spline V) (inner : spline (point T d)), wf inner ->
  (exists p k, In p (control_points inner) /\ k < d /\ ~ in_unit (coord _ p k)) ->
  Compose MAXB outer inner = Throw /\ ComposeSensitivity MAXB outer inner = Throw.
Proof. exact c28_compose_outside. Qed.
Print Assumptions C28_compose_outside.
Example C28_case : wf ex_outer /\ wf ex_inner /\ wf ex_leaves /\
  (forall p k, In p (control_points ex_inner) -> k < length (degrees ex_outer) -> in_unit (coord 2 p k)) /\
  Forall (fun p => list_sum (degrees ex_outer) * p < 4) (degrees ex_inner) /\
  Forall (fun p => p < 4) (degrees ex_outer) /\
  (exists r, Compose 4 ex_outer ex_inner = Ok r /\ degrees r = [2] /\
     Evaluate ex_inner [Q2Qc 2] = Ok (Q2Qc 2, (Q2Qc 0, tt)) /\
     Evaluate ex_outer [Q2Qc 2; Q2Qc 0] = Ok (Q2Qc (-5)) /\ Evaluate r [Q2Qc 2] = Ok (Q2Qc (-5))) /\
  (exists p k, In p (control_points ex_leaves) /\ k < 2 /\ ~ in_unit (coord 2 p k)).
Proof.
  do 3 (split; [case_|]). split.
  { intros p k [<-|[<-|[]]] Hk; (destruct k as [|[|k]]; [| |simpl in Hk; lia]); split; vm_compute; reflexivity. }
  do 2 (split; [case_|]). split.
  - eexists. split; [vm_compute; reflexivity|]. case_.
  - exists (Q2Qc 1, (Q2Qc (3 # 2), tt)), 1. split; [simpl; auto|]. split; [lia|].
    intros (_ & A). vm_compute in A. congruence.
Qed.

(** C29: ComposeSensitivity. *)
Theorem C29_sensitivity : forall (T V : Type) (o : SOps T) (ov : VOps T V) (F : SField T) (M : VMod T V)
  (O : SOrder T) (MAXB : nat) (outer : spline V) (inner : spline (point T (length (degrees outer)))),
  MAXB <= 68 -> wf outer -> wf inner ->
  (forall p k, In p (control_points inner) -> k < length (degrees outer) -> in_unit (coord _ p k)) ->
  Forall (fun p => list_sum (degrees outer) * p < MAXB) (degrees inner) ->
  Forall (fun p => p < MAXB) (degrees outer) ->
  exists ts r, ComposeSensitivity MAXB outer inner = Ok ts /\ length ts = length (control_points outer) /\
    Compose MAXB outer inner = Ok r /\
    (** moving control point i by delta *)
    (forall i P (delta : V), nth_error (control_points outer) i = Some P ->
       exists t r', nth_error ts i = Some t /\ wf t /\
         Compose MAXB (with_cps outer (upd_list (control_points outer) i (vadd P delta))) inner = Ok r' /\
         forall xs : list T, length xs = length (degrees inner) ->
           exists a c, Evaluate r xs = Ok a /\ Evaluate t xs = Ok c /\
             Evaluate r' xs = Ok (vadd a (vscale c delta))) /\
    (** the composition is the combination of the control points *)
    (forall xs : list T, length xs = length (degrees inner) ->
       exists cs : list T, mapM (fun t => Evaluate t xs) ts = Ok cs /\
         Evaluate r xs = Ok (vsum (length ts) (fun i => vscale (nth i cs s0) (nth i (control_points outer) v0)))).
Proof. exact c29_sensitivity. Qed.
Print Assumptions C29_sensitivity.
Example C29_case : exists a b c d, ComposeSensitivity 4 ex_outer ex_inner = Ok [a; b; c; d] /\
  degrees b = [2] /\ Evaluate b [Q2Qc 2] = Ok (Q2Qc 2).
Proof. do 4 eexists. split; [vm_compute; reflexivity|]. case_. Qed.
