(** Property C109: the spline has the shape of its control net. *)
From Coq Require Import Arith Lia List ZArith Bool Reals Lra.
From Verif Require Import Prelude Scalar Spec SpecSpline SpecReal Coord ModelBasis ModelPoint ModelSpline ModelRational SpecNet SpecShape ClaimsA ClaimsShape.
Import ListNotations.
Local Open Scope R_scope.

(** C109: the functions in use, and monotone and convex nets. *)
Theorem C109_forms : affine_form (V := R) (fun x => x) /\
  (forall d k, affine_form (fun p : point R d => coord d p k)) /\
  (forall (V : Type) (ov : VOps R V) (phi : V -> R), linear_form phi -> affine_form phi) /\
  (forall (V : Type) (ov : VOps R V) (phi psi : V -> R) (a b c : R), affine_form phi -> affine_form psi ->
     affine_form (fun v => a * phi v + b * psi v + c)).
Proof. exact c109_forms. Qed.
Print Assumptions C109_forms.
Theorem C109_monotone : forall (V : Type) (ov : VOps R V) (M : VMod R V) (phi : V -> R) (s : spline V) (k : nat) (xs : list R) (y : R),
  affine_form phi -> wf s -> (k < length (degrees s))%nat -> rising phi s k ->
  length xs = length (degrees s) -> Forall (fun x => 0 <= x <= 1) xs -> nth k xs 0 <= y <= 1 ->
  exists v w, Evaluate s xs = Ok v /\ Evaluate s (upd_list xs k y) = Ok w /\ phi v <= phi w.
Proof. exact c109_monotone. Qed.
Print Assumptions C109_monotone.
Theorem C109_convex : forall (V : Type) (ov : VOps R V) (M : VMod R V) (phi : V -> R) (s : spline V) (k : nat) (xs : list R) (y z t : R),
  affine_form phi -> wf s -> (k < length (degrees s))%nat -> convex_net phi s k ->
  length xs = length (degrees s) -> Forall (fun x => 0 <= x <= 1) xs -> 0 <= y <= 1 -> 0 <= z <= 1 -> 0 <= t <= 1 ->
  exists u v w, Evaluate s (upd_list xs k y) = Ok u /\ Evaluate s (upd_list xs k z) = Ok v /\
    Evaluate s (upd_list xs k ((1 - t) * y + t * z)) = Ok w /\ phi w <= (1 - t) * phi u + t * phi v.
Proof. exact c109_convex. Qed.
Print Assumptions C109_convex.
Theorem C109_split : forall (V : Type) (ov : VOps R V) (M : VMod R V) (phi : V -> R) (s : spline V) (x : R) (k : nat),
  affine_form phi -> wf s -> (k < length (degrees s))%nat -> 0 < x < 1 ->
  exists a b, SplitAtPosition s x k = Ok [a; b] /\ forall j, (j < length (degrees s))%nat ->
    (rising phi s j -> rising phi a j /\ rising phi b j) /\ (convex_net phi s j -> convex_net phi a j /\ convex_net phi b j).
Proof. exact c109_split. Qed.
Print Assumptions C109_split.
Theorem C109_splits : forall (V : Type) (ov : VOps R V) (M : VMod R V) (phi : V -> R) (s : spline V) (planes : list R) (k : nat),
  affine_form phi -> wf s -> (k < length (degrees s))%nat ->
  let bounds := 0 :: planes ++ [1] in
  (forall i, (S i < length bounds)%nat -> nth i bounds 0 < nth (S i) bounds 0) ->
  exists parts, SplitAtPositions s planes k = Ok parts /\ length parts = S (length planes) /\
    forall q j, In q parts -> (j < length (degrees s))%nat ->
      (rising phi s j -> rising phi q j) /\ (convex_net phi s j -> convex_net phi q j).
Proof. exact c109_splits. Qed.
Print Assumptions C109_splits.
Theorem C109_elevate : forall (V : Type) (ov : VOps R V) (M : VMod R V) (phi : V -> R) (s : spline V) (k : nat),
  affine_form phi -> wf s -> (k < length (degrees s))%nat ->
  (Z.of_nat (n_coeffs (upd_list (degrees s) k (nth k (degrees s) 0 + 1)%nat)) < 2 ^ 31)%Z ->
  exists e, OrderElevate (T := R) s k = Ok e /\ forall j, (j < length (degrees s))%nat ->
    (rising phi s j -> rising phi e j) /\ (convex_net phi s j -> convex_net phi e j).
Proof. exact c109_elevate. Qed.
Print Assumptions C109_elevate.
(** C109: changes of sign (crossings of a plane). *)
Theorem C109_variation : forall (V : Type) (ov : VOps R V) (M : VMod R V) (phi : V -> R) (s : spline V) (p : nat) (xs : list R) (vs : list V),
  affine_form phi -> wf s -> degrees s = [p] ->
  increasing Rlt xs -> Forall (fun x => 0 <= x <= 1) xs -> Forall2 (fun x v => Evaluate s [x] = Ok v) xs vs ->
  alternating (map phi vs) ->
  exists is : list nat, increasing lt is /\ Forall (fun i => (i < length (control_points s))%nat) is /\ length is = length xs /\
    alternating (map (fun i => phi (nth i (control_points s) v0)) is) /\
    Forall2 (fun i v => same_sign (phi (nth i (control_points s) v0)) (phi v)) is vs.
Proof. exact c109_variation. Qed.
Print Assumptions C109_variation.
Theorem C109_variation_rational : forall (V : Type) (ov : VOps R V) (M : VMod R V) (phi : V -> R) (p : nat) (pts : list V) (ws xs : list R) (vs : list V),
  affine_form phi -> length pts = (p + 1)%nat -> length ws = (p + 1)%nat -> Forall (fun w => 0 < w) ws ->
  exists r, R_deg_points [p] pts ws = Ok r /\
    (increasing Rlt xs -> Forall (fun x => 0 <= x <= 1) xs -> Forall2 (fun x v => R_Evaluate r [x] = Ok v) xs vs ->
     alternating (map phi vs) ->
     exists is : list nat, increasing lt is /\ Forall (fun i => (i < length pts)%nat) is /\ length is = length xs /\
       alternating (map (fun i => phi (nth i pts v0)) is) /\
       Forall2 (fun i v => same_sign (phi (nth i pts v0)) (phi v)) is vs).
Proof. exact c109_variation_rational. Qed.
Print Assumptions C109_variation_rational.
Theorem C109_variation_split : forall (V : Type) (ov : VOps R V) (M : VMod R V) (phi : V -> R) (s : spline V) (x : R) (k : nat),
  affine_form phi -> wf s -> (k < length (degrees s))%nat -> 0 < x < 1 ->
  exists a b, SplitAtPosition s x k = Ok [a; b] /\ forall idx, valid_index (degrees s) idx ->
    let p := nth k (degrees s) 0%nat in let line q i := phi (net q (upd_list idx k i)) in
    no_more_changes (line a) p (line s) p /\ no_more_changes (line b) p (line s) p.
Proof. exact c109_variation_split. Qed.
Print Assumptions C109_variation_split.
Theorem C109_variation_elevate : forall (V : Type) (ov : VOps R V) (M : VMod R V) (phi : V -> R) (s : spline V) (k : nat),
  affine_form phi -> wf s -> (k < length (degrees s))%nat ->
  (Z.of_nat (n_coeffs (upd_list (degrees s) k (nth k (degrees s) 0 + 1)%nat)) < 2 ^ 31)%Z ->
  exists e, OrderElevate (T := R) s k = Ok e /\ forall idx, valid_index (degrees s) idx ->
    let p := nth k (degrees s) 0%nat in let line q i := phi (net q (upd_list idx k i)) in
    no_more_changes (line e) (p + 1) (line s) p.
Proof. exact c109_variation_elevate. Qed.
Print Assumptions C109_variation_elevate.
(** A rising convex net; a cubic that crosses zero three times, as its net does, and one that crosses once
    although its net crosses three times. *)
Example C109_case :
  let s : spline R := mkSpline [2%nat] 3 [1%nat] [0; 1; 4] in
  let c : spline R := mkSpline [3%nat] 4 [1%nat] [-1; 4; -4; 1] in
  let d : spline R := mkSpline [3%nat] 4 [1%nat] [-1; 1 / 10; -1 / 10; 1] in
  wf s /\ rising (fun x => x) s 0 /\ convex_net (fun x => x) s 0 /\ wf c /\
  (exists u v w z, Forall2 (fun x v => Evaluate c [x] = Ok v) [0; 1 / 4; 3 / 4; 1] [u; v; w; z] /\
     alternating (map (fun x => x) [u; v; w; z])) /\
  sign_pattern (fun i => nth i (control_points c) 0) 3 [0; 1; 2; 3]%nat /\
  wf d /\ sign_pattern (fun i => nth i (control_points d) 0) 3 [0; 1; 2; 3]%nat /\
  (forall x y v w, 0 <= x < 1 / 2 -> 1 / 2 < y <= 1 -> Evaluate d [x] = Ok v -> Evaluate d [y] = Ok w -> v < 0 < w).
Proof.
  assert (EV : forall (f0 f1 f2 f3 x : R) s, s = mkSpline [3%nat] 4 [1%nat] [f0; f1; f2; f3] ->
    Evaluate s [x] = Ok ((1 - x) * (1 - x) * (1 - x) * f0 + 3 * x * (1 - x) * (1 - x) * f1 + 3 * x * x * (1 - x) * f2 + x * x * x * f3)).
  { intros f0 f1 f2 f3 x s ->. rewrite (c09_evaluate R R _ _ _ _ _ _) by (repeat split; discriminate). f_equal. cbn. change R0 with 0. change R1 with 1. ring. }
  cbv zeta. split; [repeat split; discriminate|]. split.
  { intros idx HV Hn. inversion HV as [|? i ? l Hi HV' E1 E2]; subst. inversion HV'; subst. cbn in Hn. assert (H : (i = 0 \/ i = 1)%nat) by lia.
    destruct H as [-> | ->]; cbn; change R0 with 0; lra. }
  split.
  { intros idx HV Hn. inversion HV as [|? i ? l Hi HV' E1 E2]; subst. inversion HV'; subst. cbn in Hn. assert (H : (i = 0)%nat) by lia.
    subst i. cbn. change R0 with 0. lra. }
  split; [repeat split; discriminate|]. split.
  { do 4 eexists. split; [repeat constructor; apply (EV (-1) 4 (-4) 1); reflexivity|]. cbn. lra. }
  split; [split; [cbn; lia|split; [repeat constructor; lia|cbn; lra]]|].
  split; [repeat split; discriminate|].
  split; [split; [cbn; lia|split; [repeat constructor; lia|cbn; lra]]|].
  intros x y v w Hx Hy. rewrite !(EV (-1) (1 / 10) (-1 / 10) 1 _ _ eq_refl). intros Ev Ew. injection Ev as <-. injection Ew as <-.
  assert (F : forall z, (1 - z) * (1 - z) * (1 - z) * -1 + 3 * z * (1 - z) * (1 - z) * (1 / 10) + 3 * z * z * (1 - z) * (-1 / 10) + z * z * z * 1 =
    (2 * z - 1) * (1 - z * (1 - z) * (13 / 10))) by (intros; field).
  rewrite !F. assert (P : forall z, 0 < 1 - z * (1 - z) * (13 / 10)).
  { intros z. assert (0 <= (z - 1 / 2) * (z - 1 / 2)) by apply Rle_0_sqr. lra. }
  pose proof (P x). pose proof (P y). split; nra.
Qed.
