(** Properties C20, C23, C32, C33: products, powers and splitting. *)
From Coq Require Import Arith Lia List ZArith NArith Bool QArith Qcanon.
From Verif Require Import Prelude Scalar Spec SpecSpline Coord ModelBasis ModelSpline ModelPoint Examples ClaimsD.
Import ListNotations.
Local Open Scope nat_scope.

(** Two scalar-valued splines of degrees (1, 1) and (0, 1). *)
Definition ex_a : spline Qc :=
  mkSpline [1; 1] 4 [1; 2] (map (fun z => Q2Qc (inject_Z z)) [1; -2; 3; 4]%Z).
Definition ex_b : spline Qc :=
  mkSpline [0; 1] 2 [1; 1] (map (fun z => Q2Qc (inject_Z z)) [2; -1]%Z).
Definition ex_d : spline (point Qc 2) :=
  mkSpline [0; 1] 2 [1; 1]
    (map (fun '(a, b) => (Q2Qc (inject_Z a), (Q2Qc (inject_Z b), tt))) [(1, -1); (2, 3)]%Z).

(** C20: the product of splines is the pointwise product. *)
Theorem C20_product_scalar_scalar : forall (T : Type) (o : SOps T) (F : SField T) (MAXB : nat) (P Q : spline T),
  MAXB <= 68 -> wf P -> wf Q -> length (degrees Q) = length (degrees P) ->
  Forall (fun p => p < MAXB) (map2 Nat.add (degrees P) (degrees Q)) ->
  exists r : spline T, spline_mul MAXB (fun a b => smul a b) P Q = Ok r /\ wf r /\
    degrees r = map2 Nat.add (degrees P) (degrees Q) /\
    forall xs : list T, length xs = length (degrees P) ->
      exists a b, Evaluate P xs = Ok a /\ Evaluate Q xs = Ok b /\ Evaluate r xs = Ok (smul a b).
Proof. exact c20_product_scalar_scalar. Qed.
Print Assumptions C20_product_scalar_scalar.
Theorem C20_product_point_scalar : forall (T V : Type) (o : SOps T) (ov : VOps T V) (F : SField T) (M : VMod T V)
  (MAXB : nat) (P : spline V) (Q : spline T),
  MAXB <= 68 -> wf P -> wf Q -> length (degrees Q) = length (degrees P) ->
  Forall (fun p => p < MAXB) (map2 Nat.add (degrees P) (degrees Q)) ->
  exists r : spline V, spline_mul MAXB (fun p c => vscale c p) P Q = Ok r /\ wf r /\
    degrees r = map2 Nat.add (degrees P) (degrees Q) /\
    forall xs : list T, length xs = length (degrees P) ->
      exists p c, Evaluate P xs = Ok p /\ Evaluate Q xs = Ok c /\ Evaluate r xs = Ok (vscale c p).
Proof. exact c20_product_point_scalar. Qed.
Print Assumptions C20_product_point_scalar.
Theorem C20_product_scalar_point : forall (T V : Type) (o : SOps T) (ov : VOps T V) (F : SField T) (M : VMod T V)
  (MAXB : nat) (P : spline T) (Q : spline V),
  MAXB <= 68 -> wf P -> wf Q -> length (degrees Q) = length (degrees P) ->
  Forall (fun p => p < MAXB) (map2 Nat.add (degrees P) (degrees Q)) ->
  exists r : spline V, spline_mul MAXB (fun c p => vscale c p) P Q = Ok r /\ wf r /\
    degrees r = map2 Nat.add (degrees P) (degrees Q) /\
    forall xs : list T, length xs = length (degrees P) ->
      exists c p, Evaluate P xs = Ok c /\ Evaluate Q xs = Ok p /\ Evaluate r xs = Ok (vscale c p).
Proof. exact c20_product_scalar_point. Qed.
Print Assumptions C20_product_scalar_point.
Theorem C20_product_dot : forall (T : Type) (o : SOps T) (F : SField T) (MAXB d : nat) (P Q : spline (point T d)),
  MAXB <= 68 -> wf P -> wf Q -> length (degrees Q) = length (degrees P) ->
  Forall (fun p => p < MAXB) (map2 Nat.add (degrees P) (degrees Q)) ->
  exists r : spline T,
    spline_mul MAXB (fun p q => ssum d (fun k => smul (coord d p k) (coord d q k))) P Q = Ok r /\ wf r /\
    degrees r = map2 Nat.add (degrees P) (degrees Q) /\
    forall xs : list T, length xs = length (degrees P) ->
      exists p q, Evaluate P xs = Ok p /\ Evaluate Q xs = Ok q /\
        exists c, point_dot p q = Ok c /\ Evaluate r xs = Ok c.
Proof. exact c20_product_dot. Qed.
Print Assumptions C20_product_dot.
Example C20_case : wf ex_a /\ wf ex_b /\ wf ex_p /\ wf ex_d /\
  Forall (fun p => p < 4) (map2 Nat.add (degrees ex_a) (degrees ex_b)) /\
  Forall (fun p => p < 4) (map2 Nat.add (degrees ex_p) (degrees ex_d)) /\
  exists r, spline_mul (T := Qc) (V3 := Qc) 4 (fun a b => smul a b) ex_a ex_b = Ok r /\ degrees r = [1; 2] /\
    Evaluate ex_a [Q2Qc 2; Q2Qc (-1)] = Ok (Q2Qc (-15)) /\
    Evaluate ex_b [Q2Qc 2; Q2Qc (-1)] = Ok (Q2Qc 5) /\
    Evaluate r [Q2Qc 2; Q2Qc (-1)] = Ok (Q2Qc (-75)).
Proof. do 6 (split; [case_|]). eexists. split; [vm_compute; reflexivity|]. case_. Qed.

(** C23: RaisePower is the pointwise power. *)
Theorem C23_raise_power : forall (T : Type) (o : SOps T) (F : SField T) (MAXB : nat) (s : spline T) (n : nat),
  MAXB <= 68 -> wf s -> Forall (fun p => n * p < MAXB) (degrees s) ->
  exists r, RaisePower MAXB s n = Ok r /\ wf r /\ degrees r = map (Nat.mul n) (degrees s) /\
    forall xs : list T, length xs = length (degrees s) ->
      exists x, Evaluate s xs = Ok x /\ Evaluate r xs = Ok (sprod (repeat x n)).
Proof. exact c23_raise_power. Qed.
Print Assumptions C23_raise_power.
Example C23_case : wf ex_b /\ Forall (fun p => 3 * p < 4) (degrees ex_b) /\
  exists r, RaisePower 4 ex_b 3 = Ok r /\ degrees r = [0; 3] /\
    Evaluate ex_b [Q2Qc 0; Q2Qc (-1)] = Ok (Q2Qc 5) /\ Evaluate r [Q2Qc 0; Q2Qc (-1)] = Ok (Q2Qc 125).
Proof. do 2 (split; [case_|]). eexists. split; [vm_compute; reflexivity|]. case_. Qed.

(** C32: splitting reproduces the spline on both halves. *)
Theorem C32_split : forall (T V : Type) (o : SOps T) (ov : VOps T V) (F : SField T) (M : VMod T V) (O : SOrder T)
  (s : spline V) (x : T) (k : nat),
  wf s -> k < length (degrees s) -> slt s0 x -> slt x s1 ->
  exists a b, SplitAtPosition s x k = Ok [a; b] /\ wf a /\ wf b /\
    degrees a = degrees s /\ degrees b = degrees s /\
    forall xs : list T, length xs = length (degrees s) ->
      Evaluate a xs = Evaluate s (upd_list xs k (smul x (nth k xs s0))) /\
      Evaluate b xs = Evaluate s (upd_list xs k (sadd x (smul (ssub s1 x) (nth k xs s0)))).
Proof. exact c32_split. Qed.
Print Assumptions C32_split.
Theorem C32_split_range : forall (T V : Type) (o : SOps T) (ov : VOps T V) (s : spline V) (x : T) (k : nat),
  ~ (slt s0 x /\ slt x s1) -> SplitAtPosition s x k = Throw.
Proof. exact c32_split_range. Qed.
Print Assumptions C32_split_range.
Example C32_case : wf ex_p /\ 0 < length (degrees ex_p) /\ slt (Q2Qc 0) (Q2Qc (1 # 3)) /\ slt (Q2Qc (1 # 3)) (Q2Qc 1) /\
  ~ (slt (Q2Qc 0) (Q2Qc 1) /\ slt (Q2Qc 1) (Q2Qc 1)) /\
  exists a b, SplitAtPosition ex_p (Q2Qc (1 # 3)) 0 = Ok [a; b] /\
    Evaluate b [Q2Qc (1 # 2); Q2Qc (1 # 4)] = Evaluate ex_p [Q2Qc (2 # 3); Q2Qc (1 # 4)].
Proof.
  do 4 (split; [case_|]). split; [intros (_ & A); vm_compute in A; congruence|].
  do 2 eexists. split; [vm_compute; reflexivity|]. qc_eq.
Qed.

(** C33: splitting at several positions. *)
Theorem C33_multi_split : forall (T V : Type) (o : SOps T) (ov : VOps T V) (F : SField T) (M : VMod T V)
  (O : SOrder T) (s : spline V) (planes : list T) (k : nat),
  wf s -> k < length (degrees s) ->
  let bounds := s0 :: planes ++ [s1] in
  (forall i, S i < length bounds -> slt (nth i bounds s0) (nth (S i) bounds s0)) ->
  exists parts, SplitAtPositions s planes k = Ok parts /\ length parts = S (length planes) /\
    forall i, i <= length planes -> exists b, nth_error parts i = Some b /\ wf b /\ degrees b = degrees s /\
      forall xs : list T, length xs = length (degrees s) ->
        Evaluate b xs = Evaluate s (upd_list xs k
          (sadd (nth i bounds s0) (smul (ssub (nth (S i) bounds s0) (nth i bounds s0)) (nth k xs s0)))).
Proof. exact c33_multi_split. Qed.
Print Assumptions C33_multi_split.
Theorem C33_multi_split_empty : forall (T V : Type) (o : SOps T) (ov : VOps T V) (s : spline V) (k : nat),
  SplitAtPositions s [] k = Ok [s].
Proof. exact c33_multi_split_empty. Qed.
Print Assumptions C33_multi_split_empty.
Theorem C33_multi_split_bad : forall (T V : Type) (o : SOps T) (ov : VOps T V) (F : SField T) (M : VMod T V)
  (O : SOrder T) (s : spline V) (planes : list T) (k : nat),
  wf s -> k < length (degrees s) -> planes <> [] ->
  let bounds := s0 :: planes ++ [s1] in
  ~ (forall i, S i < length bounds -> slt (nth i bounds s0) (nth (S i) bounds s0)) ->
  SplitAtPositions s planes k = Throw.
Proof. exact c33_multi_split_bad. Qed.
Print Assumptions C33_multi_split_bad.
Example C33_case :
  let planes := [Q2Qc (1 # 4); Q2Qc (1 # 2); Q2Qc (2 # 3)] in
  let bounds := s0 :: planes ++ [s1] in
  wf ex_p /\ 1 < length (degrees ex_p) /\
  (forall i, S i < length bounds -> slt (nth i bounds s0) (nth (S i) bounds s0)) /\
  (exists a b c d, SplitAtPositions ex_p planes 1 = Ok [a; b; c; d] /\
    Evaluate c [Q2Qc (1 # 3); Q2Qc (1 # 2)] = Evaluate ex_p [Q2Qc (1 # 3); Q2Qc (7 # 12)]) /\
  SplitAtPositions ex_p [Q2Qc (1 # 4); Q2Qc (1 # 4)] 1 = Throw /\
  SplitAtPositions ex_p [Q2Qc (1 # 2); Q2Qc (1 # 4)] 1 = Throw /\
  SplitAtPositions ex_p [Q2Qc (1 # 2); Q2Qc 1] 1 = Throw.
Proof.
  do 2 (split; [case_|]). split.
  { intros i Hi. do 4 (destruct i as [|i]; [vm_compute; reflexivity|]). simpl in Hi. lia. }
  split; [|case_]. do 4 eexists. split; [vm_compute; reflexivity|]. qc_eq.
Qed.
