(** Property C105: how far the control points are from the spline. *)
From Coq Require Import Arith Lia List ZArith Bool Reals Lra.
From Verif Require Import Prelude Scalar Spec SpecSpline Coord ModelBasis ModelPoint ModelNorm ModelSpline ProofIndex SpecNet ProofNet4 ClaimsNet.
Import ListNotations.
Local Open Scope R_scope.

(** C105: the distances in use, and the distance of the control points from the spline. *)
Theorem C105_norms : seminorm (V := R) Rabs /\
  (forall d k, seminorm (fun p : point R d => Rabs (coord d p k))) /\
  (forall d (N : point R d -> R), (forall p, point_norm p = Ok (N p)) -> seminorm N).
Proof. exact c105_norms. Qed.
Print Assumptions C105_norms.
Theorem C105_distance : forall (V : Type) (ov : VOps R V) (M : VMod R V) (N : V -> R) (s : spline V) (idx : list nat) (ts Ds : list R),
  seminorm N -> wf s -> valid_index (degrees s) idx -> node (degrees s) idx ts -> length Ds = length (degrees s) ->
  (forall k, (k < length (degrees s))%nat -> bends_below N s k (nth k Ds 0)) ->
  exists v, Evaluate s ts = Ok v /\ N (vsub v (net s idx)) <= allowance (degrees s) idx Ds /\
    (Forall (fun D => 0 <= D) Ds -> allowance (degrees s) idx Ds <= weighted_sum (degrees s) Ds / 8).
Proof. exact c105_distance. Qed.
Print Assumptions C105_distance.
Theorem C105_spread : forall (V : Type) (ov : VOps R V) (M : VMod R V) (N : V -> R) (s : spline V) (Ds : list R),
  seminorm N -> wf s -> length Ds = length (degrees s) -> Forall (fun D => 0 <= D) Ds ->
  (forall k, (k < length (degrees s))%nat -> steps_below N s k (nth k Ds 0)) ->
  (forall idx idx', valid_index (degrees s) idx -> valid_index (degrees s) idx' ->
     N (vsub (net s idx) (net s idx')) <= weighted_sum (degrees s) Ds) /\
  (forall idx ts, valid_index (degrees s) idx -> length ts = length (degrees s) -> Forall (fun t => 0 <= t <= 1) ts ->
     exists v, Evaluate s ts = Ok v /\ N (vsub v (net s idx)) <= weighted_sum (degrees s) Ds).
Proof. exact c105_spread. Qed.
Print Assumptions C105_spread.
Theorem C105_corners : forall (d : nat) (s : spline (point R d)) (c : nat) (Ds : list R), wf s -> (c < d)%nat ->
  length Ds = length (degrees s) -> Forall (fun D => 0 <= D) Ds ->
  (forall k, (k < length (degrees s))%nat -> bends_below (fun p => Rabs (coord d p c)) s k (nth k Ds 0)) ->
  exists lo hi, MinimumCorner s = Ok lo /\ MaximumCorner s = Ok hi /\
    (forall ts v, length ts = length (degrees s) -> Forall (fun t => 0 <= t <= 1) ts -> Evaluate s ts = Ok v ->
       coord d lo c <= coord d v c <= coord d hi c) /\
    (exists ts v, Forall (fun t => 0 <= t <= 1) ts /\ Evaluate s ts = Ok v /\ coord d v c <= coord d lo c + weighted_sum (degrees s) Ds / 8) /\
    (exists ts v, Forall (fun t => 0 <= t <= 1) ts /\ Evaluate s ts = Ok v /\ coord d hi c - weighted_sum (degrees s) Ds / 8 <= coord d v c).
Proof. exact c105_corners. Qed.
Print Assumptions C105_corners.
(** C105: refinement brings the control points closer. *)
Theorem C105_split : forall (V : Type) (ov : VOps R V) (M : VMod R V) (N : V -> R) (s : spline V) (x : R) (k : nat),
  seminorm N -> wf s -> (k < length (degrees s))%nat -> 0 < x < 1 ->
  exists a b, SplitAtPosition s x k = Ok [a; b] /\ forall j D, (j < length (degrees s))%nat ->
    (steps_below N s j D -> steps_below N a j ((if (j =? k)%nat then x else 1) * D) /\ steps_below N b j ((if (j =? k)%nat then 1 - x else 1) * D)) /\
    (bends_below N s j D -> bends_below N a j ((if (j =? k)%nat then x * x else 1) * D) /\
       bends_below N b j ((if (j =? k)%nat then (1 - x) * (1 - x) else 1) * D)).
Proof. exact c105_split. Qed.
Print Assumptions C105_split.
Theorem C105_splits : forall (V : Type) (ov : VOps R V) (M : VMod R V) (N : V -> R) (s : spline V) (planes : list R) (k : nat),
  seminorm N -> wf s -> (k < length (degrees s))%nat ->
  let bounds := 0 :: planes ++ [1] in
  (forall i, (S i < length bounds)%nat -> nth i bounds 0 < nth (S i) bounds 0) ->
  exists parts, SplitAtPositions s planes k = Ok parts /\ length parts = S (length planes) /\
    forall i j D, (i <= length planes)%nat -> (j < length (degrees s))%nat ->
      exists q, nth_error parts i = Some q /\ let h := nth (S i) bounds 0 - nth i bounds 0 in
        (steps_below N s j D -> steps_below N q j ((if (j =? k)%nat then h else 1) * D)) /\
        (bends_below N s j D -> bends_below N q j ((if (j =? k)%nat then h * h else 1) * D)).
Proof. exact c105_splits. Qed.
Print Assumptions C105_splits.
Theorem C105_halved : forall (V : Type) (ov : VOps R V) (M : VMod R V) (N : V -> R) (ks : list nat) (s r : spline V),
  seminorm N -> wf s -> Forall (fun k => (k < length (degrees s))%nat) ks -> halved ks s r ->
  wf r /\ degrees r = degrees s /\ forall j D, (j < length (degrees s))%nat -> let n := count_occ Nat.eq_dec ks j in
    (steps_below N s j D -> steps_below N r j (D / 2 ^ n)) /\ (bends_below N s j D -> bends_below N r j (D / 4 ^ n)).
Proof. exact c105_halved. Qed.
Print Assumptions C105_halved.
Theorem C105_halved_distance : forall (V : Type) (ov : VOps R V) (M : VMod R V) (N : V -> R) (ks : list nat) (s r : spline V) (Ds : list R),
  seminorm N -> wf s -> Forall (fun k => (k < length (degrees s))%nat) ks -> halved ks s r ->
  length Ds = length (degrees s) -> Forall (fun D => 0 <= D) Ds ->
  (forall k, (k < length (degrees s))%nat -> bends_below N s k (nth k Ds 0)) ->
  forall p, In p (control_points r) -> exists ts v, Forall (fun t => 0 <= t <= 1) ts /\ Evaluate s ts = Ok v /\
    N (vsub v p) <= weighted_sum (degrees s) (map (fun k => nth k Ds 0 / 4 ^ count_occ Nat.eq_dec ks k) (seq 0 (length Ds))) / 8.
Proof. exact c105_halved_distance. Qed.
Print Assumptions C105_halved_distance.
Theorem C105_elevate : forall (V : Type) (ov : VOps R V) (M : VMod R V) (N : V -> R) (s : spline V) (k : nat),
  seminorm N -> wf s -> (k < length (degrees s))%nat ->
  let p := nth k (degrees s) 0%nat in
  (Z.of_nat (n_coeffs (upd_list (degrees s) k (p + 1)%nat)) < 2 ^ 31)%Z ->
  exists e, OrderElevate (T := R) s k = Ok e /\ forall j D, (j < length (degrees s))%nat ->
    (steps_below N s j D -> steps_below N e j ((if (j =? k)%nat then INR p / INR (p + 1) else 1) * D)) /\
    (bends_below N s j D -> bends_below N e j ((if (j =? k)%nat then INR (p - 1) / INR (p + 1) else 1) * D)).
Proof. exact c105_elevate. Qed.
Print Assumptions C105_elevate.
Theorem C105_elevated : forall (V : Type) (ov : VOps R V) (M : VMod R V) (N : V -> R) (k n : nat) (s : spline V),
  seminorm N -> wf s -> (k < length (degrees s))%nat ->
  let p := nth k (degrees s) 0%nat in
  (Z.of_nat (n_coeffs (upd_list (degrees s) k (p + n)%nat)) < 2 ^ 31)%Z ->
  (exists r, elevated k n s r) /\ forall r, elevated k n s r ->
    wf r /\ degrees r = upd_list (degrees s) k (p + n)%nat /\
    (forall xs, length xs = length (degrees s) -> Evaluate r xs = Evaluate s xs) /\
    forall j D, (j < length (degrees s))%nat ->
      (steps_below N s j D -> steps_below N r j ((if (j =? k)%nat then INR p / INR (p + n) else 1) * D)) /\
      (bends_below N s j D -> bends_below N r j ((if (j =? k)%nat then INR p * INR (p - 1) / (INR (p + n) * INR (p + n - 1)) else 1) * D)).
Proof. exact c105_elevated. Qed.
Print Assumptions C105_elevated.
Theorem C105_elevated_curve : forall (V : Type) (ov : VOps R V) (M : VMod R V) (N : V -> R) (n p : nat) (s r : spline V) (D : R),
  seminorm N -> wf s -> degrees s = [p] -> (2 <= p)%nat -> (Z.of_nat (p + n + 1) < 2 ^ 31)%Z -> elevated 0 n s r ->
  0 <= D -> bends_below N s 0 D -> forall i, (i <= p + n)%nat ->
  exists v, Evaluate s [INR i / INR (p + n)] = Ok v /\
    N (vsub v (nth i (control_points r) v0)) <= INR p * INR (p - 1) / (8 * INR (p + n - 1)) * D.
Proof. exact c105_elevated_curve. Qed.
Print Assumptions C105_elevated_curve.
(** The bound of C105_distance is attained at the middle of [0, 1, 0]; the bounds after a split and after
    an elevation are attained as well. *)
Example C105_case :
  let s : spline R := mkSpline [2%nat] 3 [1%nat] [0; 1; 0] in
  seminorm Rabs /\ wf s /\ bends_below Rabs s 0 2 /\ steps_below Rabs s 0 1 /\ node [2%nat] [1%nat] [1 / 2] /\
  (exists v, Evaluate s [1 / 2] = Ok v /\ Rabs (v - net s [1%nat]) = allowance [2%nat] [1%nat] [2] /\ allowance [2%nat] [1%nat] [2] = 1 / 2) /\
  (exists a b, SplitAtPosition s (1 / 2) 0 = Ok [a; b] /\ halved [0%nat] s a /\ bends_below Rabs a 0 (1 / 2) /\
     net a [2%nat] - net a [1%nat] - (net a [1%nat] - net a [0%nat]) = - (1 / 2)) /\
  (exists e, elevated 0 1 s e /\ bends_below Rabs e 0 (1 / 3 * 2) /\
     net e [2%nat] - net e [1%nat] - (net e [1%nat] - net e [0%nat]) = - (1 / 3 * 2)).
Proof.
  cbv zeta. match goal with |- context [wf ?x] => set (s := x : spline R) end.
  assert (HN : seminorm (V := R) Rabs) by exact (proj1 C105_norms).
  assert (Hw : wf s) by (repeat split; discriminate).
  assert (HB : bends_below Rabs s 0 2).
  { intros idx HV Hc. inversion HV as [|? i ? l Hi HV' E1 E2]; subst. inversion HV'; subst. cbn in Hc. assert (i = 0%nat) as -> by lia.
    cbn. change R0 with 0. unfold Rabs. destruct (Rcase_abs _); lra. }
  assert (HS : steps_below Rabs s 0 1).
  { intros idx HV Hc. inversion HV as [|? i ? l Hi HV' E1 E2]; subst. inversion HV'; subst. cbn in Hc. assert (Hi' : (i = 0 \/ i = 1)%nat) by lia.
    destruct Hi' as [-> | ->]; cbn; change R0 with 0; unfold Rabs; destruct (Rcase_abs _); lra. }
  assert (Hn : node [2%nat] [1%nat] [1 / 2]).
  { split; [reflexivity|]. intros k Hk. cbn in Hk. replace k with 0%nat by lia. cbn. lra. }
  assert (HA : allowance [2%nat] [1%nat] [2] = 1 / 2) by (cbn; field).
  repeat (split; [assumption|]). split; [|split].
  - rewrite (ClaimsA.c09_evaluate R R _ _ _ _ s [1 / 2] Hw eq_refl). eexists. split; [reflexivity|]. split; [|exact HA]. rewrite HA.
    cbn. change R0 with 0. change R1 with 1. replace (_ - _) with (- (1 / 2)) by field. rewrite Rabs_Ropp. apply Rabs_pos_eq. lra.
  - destruct (C105_split R _ _ Rabs s (1 / 2) 0 HN Hw ltac:(cbn; lia) ltac:(lra)) as (a & b & E & HD). exists a, b. split; [exact E|].
    split; [econstructor; [exact E|left; reflexivity|constructor]|]. split.
    + destruct (HD 0%nat 2 ltac:(cbn; lia)) as (_ & X). destruct (X HB) as (Y & _). cbn [Nat.eqb] in Y. replace (1 / 2 * (1 / 2) * 2) with (1 / 2) in Y by field. exact Y.
    + unfold SplitAtPosition in E. revert E. cbn. change R0 with 0. change R1 with 1. repeat (destruct (Rlt_dec _ _); try lra). cbn. intros E. injection E as <- <-.
      cbn. field.
  - destruct (C105_elevated R _ _ Rabs 0 1 s HN Hw ltac:(cbn; lia)) as ((e & He) & X); [reflexivity|]. exists e. split; [exact He|]. split.
    + destruct (X e He) as (_ & _ & _ & Y). destruct (Y 0%nat 2 ltac:(cbn; lia)) as (_ & B). specialize (B HB). cbn in B.
      replace ((1 + 1) * 1 / ((1 + 1 + 1) * (1 + 1)) * 2) with (1 / 3 * 2) in B by field. exact B.
    + inversion He as [|n q1 q r E He']; subst. inversion He'; subst.
      destruct (ProofNet.elevate_net s 0 Hw ltac:(cbn; lia) eq_refl) as (e' & E' & _ & De & H). rewrite E in E'. injection E' as ->.
      rewrite !H by (rewrite De; repeat constructor). unfold ProofRaw.relev. cbn. change R0 with 0. change R1 with 1. field.
Qed.
