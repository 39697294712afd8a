(** Property C111: elevation, sums, subdivision and derivatives when the compiler contracts multiplications and additions. *)
From Coq Require Import Arith Lia List Bool ZArith Reals Lra.
From Verif Require Import Prelude Scalar Spec SpecSpline Coord ModelBasis ModelSpline ModelRound SpecRound ProofRound ProofArith ClaimsU
  ProofRoundOps ClaimsRoundOps ModelFma ModelFmaOps ClaimsFmaOps.
Import ListNotations.
Local Open Scope R_scope.

Theorem C111_elevate : forall p rnd d (s : spline (point R d)) k e, (0 < p)%nat -> nearest p rnd ->
  wf s -> (k < length (degrees s))%nat ->
  (Z.of_nat (nth k (degrees s) 0%nat + 1) < 2 ^ Z.of_nat p)%Z ->
  (Z.of_nat (n_coeffs (upd_list (degrees s) k (S (nth k (degrees s) 0%nat)))) < 2 ^ 31)%Z ->
  OrderElevate_fma rnd s k e ->
  exists e0, OrderElevate s k = Ok e0 /\ wf e /\
    degrees e = upd_list (degrees s) k (S (nth k (degrees s) 0%nat)) /\ degrees e0 = degrees e /\
    forall c B, (c < d)%nat -> coord_bound s c B ->
      (forall i, (i < n_coeffs (degrees e))%nat ->
        Rabs (coord d (nth i (control_points e) v0) c - coord d (nth i (control_points e0) v0) c) <= 3 * gamma p 5 * B) /\
      forall xs, length xs = length (degrees s) -> in_unit_box xs ->
        Rabs (coord d (value_at e xs) c - coord d (value_at s xs) c) <= 3 * gamma p 5 * B.
Proof. exact c111_elevate. Qed.
Print Assumptions C111_elevate.
Theorem C111_elevate_scalar : forall p rnd (s : spline R) k e, (0 < p)%nat -> nearest p rnd ->
  wf s -> (k < length (degrees s))%nat ->
  (Z.of_nat (nth k (degrees s) 0%nat + 1) < 2 ^ Z.of_nat p)%Z ->
  (Z.of_nat (n_coeffs (upd_list (degrees s) k (S (nth k (degrees s) 0%nat)))) < 2 ^ 31)%Z ->
  OrderElevate_fma_s rnd s k e ->
  exists e0, OrderElevate s k = Ok e0 /\ wf e /\
    degrees e = upd_list (degrees s) k (S (nth k (degrees s) 0%nat)) /\ degrees e0 = degrees e /\
    forall B, coeff_bound s B ->
      (forall i, (i < n_coeffs (degrees e))%nat ->
        Rabs (nth i (control_points e) 0 - nth i (control_points e0) 0) <= 3 * gamma p 5 * B) /\
      forall xs, length xs = length (degrees s) -> in_unit_box xs ->
        Rabs (value_at e xs - value_at s xs) <= 3 * gamma p 5 * B.
Proof. exact c111_elevate_scalar. Qed.
Print Assumptions C111_elevate_scalar.
Theorem C111_add : forall p rnd fuel d (s rhs r : spline (point R d)), (0 < p)%nat -> nearest p rnd ->
  wf s -> wf rhs -> length (degrees rhs) = length (degrees s) ->
  (Z.of_nat (list_max (max_degs (degrees s) (degrees rhs))) < 2 ^ Z.of_nat p)%Z ->
  (Z.of_nat (n_coeffs (max_degs (degrees s) (degrees rhs))) < 2 ^ 31)%Z ->
  (list_max (max_degs (degrees s) (degrees rhs)) < fuel)%nat -> (2 <= fuel)%nat ->
  spline_add_fma rnd fuel s rhs r ->
  wf r /\ degrees r = max_degs (degrees s) (degrees rhs) /\
  forall c B1 B2, (c < d)%nat -> coord_bound s c B1 -> coord_bound rhs c B2 ->
    forall xs, length xs = length (degrees s) -> in_unit_box xs ->
      Rabs (coord d (value_at r xs) c - (coord d (value_at s xs) c + coord d (value_at rhs xs) c)) <=
        sum_error p (elevations (degrees s) (degrees rhs)) (elevations (degrees rhs) (degrees s)) B1 B2.
Proof. exact c111_add. Qed.
Print Assumptions C111_add.
Theorem C111_add_scalar : forall p rnd fuel (s rhs r : spline R), (0 < p)%nat -> nearest p rnd ->
  wf s -> wf rhs -> length (degrees rhs) = length (degrees s) ->
  (Z.of_nat (list_max (max_degs (degrees s) (degrees rhs))) < 2 ^ Z.of_nat p)%Z ->
  (Z.of_nat (n_coeffs (max_degs (degrees s) (degrees rhs))) < 2 ^ 31)%Z ->
  (list_max (max_degs (degrees s) (degrees rhs)) < fuel)%nat -> (2 <= fuel)%nat ->
  spline_add_fma_s rnd fuel s rhs r ->
  wf r /\ degrees r = max_degs (degrees s) (degrees rhs) /\
  forall B1 B2, coeff_bound s B1 -> coeff_bound rhs B2 ->
    forall xs, length xs = length (degrees s) -> in_unit_box xs ->
      Rabs (value_at r xs - (value_at s xs + value_at rhs xs)) <=
        sum_error p (elevations (degrees s) (degrees rhs)) (elevations (degrees rhs) (degrees s)) B1 B2.
Proof. exact c111_add_scalar. Qed.
Print Assumptions C111_add_scalar.
Theorem C111_add_assign : forall p rnd fuel d (s rhs r : spline (point R d)), (0 < p)%nat -> nearest p rnd ->
  wf s -> wf rhs -> length (degrees rhs) = length (degrees s) ->
  (Z.of_nat (list_max (max_degs (degrees s) (degrees rhs))) < 2 ^ Z.of_nat p)%Z ->
  (Z.of_nat (n_coeffs (max_degs (degrees s) (degrees rhs))) < 2 ^ 31)%Z ->
  (list_max (max_degs (degrees s) (degrees rhs)) < fuel)%nat ->
  spline_add_assign_fma rnd fuel s rhs r ->
  wf r /\ degrees r = max_degs (degrees s) (degrees rhs) /\
  forall c B1 B2, (c < d)%nat -> coord_bound s c B1 -> coord_bound rhs c B2 ->
    forall xs, length xs = length (degrees s) -> in_unit_box xs ->
      Rabs (coord d (value_at r xs) c - (coord d (value_at s xs) c + coord d (value_at rhs xs) c)) <=
        sum_error p (elevations (degrees s) (degrees rhs)) (elevations (degrees rhs) (degrees s)) B1 B2.
Proof. exact c111_add_assign. Qed.
Print Assumptions C111_add_assign.
Theorem C111_add_assign_scalar : forall p rnd fuel (s rhs r : spline R), (0 < p)%nat -> nearest p rnd ->
  wf s -> wf rhs -> length (degrees rhs) = length (degrees s) ->
  (Z.of_nat (list_max (max_degs (degrees s) (degrees rhs))) < 2 ^ Z.of_nat p)%Z ->
  (Z.of_nat (n_coeffs (max_degs (degrees s) (degrees rhs))) < 2 ^ 31)%Z ->
  (list_max (max_degs (degrees s) (degrees rhs)) < fuel)%nat ->
  spline_add_assign_fma_s rnd fuel s rhs r ->
  wf r /\ degrees r = max_degs (degrees s) (degrees rhs) /\
  forall B1 B2, coeff_bound s B1 -> coeff_bound rhs B2 ->
    forall xs, length xs = length (degrees s) -> in_unit_box xs ->
      Rabs (value_at r xs - (value_at s xs + value_at rhs xs)) <=
        sum_error p (elevations (degrees s) (degrees rhs)) (elevations (degrees rhs) (degrees s)) B1 B2.
Proof. exact c111_add_assign_scalar. Qed.
Print Assumptions C111_add_assign_scalar.
Theorem C111_sub_assign : forall p rnd fuel d (s rhs r : spline (point R d)), (0 < p)%nat -> nearest p rnd ->
  wf s -> wf rhs -> length (degrees rhs) = length (degrees s) ->
  (Z.of_nat (list_max (max_degs (degrees s) (degrees rhs))) < 2 ^ Z.of_nat p)%Z ->
  (Z.of_nat (n_coeffs (max_degs (degrees s) (degrees rhs))) < 2 ^ 31)%Z ->
  (list_max (max_degs (degrees s) (degrees rhs)) < fuel)%nat ->
  spline_sub_assign_fma rnd fuel s rhs r ->
  wf r /\ degrees r = max_degs (degrees s) (degrees rhs) /\
  forall c B1 B2, (c < d)%nat -> coord_bound s c B1 -> coord_bound rhs c B2 ->
    forall xs, length xs = length (degrees s) -> in_unit_box xs ->
      Rabs (coord d (value_at r xs) c - (coord d (value_at s xs) c - coord d (value_at rhs xs) c)) <=
        sum_error p (elevations (degrees s) (degrees rhs)) (elevations (degrees rhs) (degrees s)) B1 B2.
Proof. exact c111_sub_assign. Qed.
Print Assumptions C111_sub_assign.
Theorem C111_sub_assign_scalar : forall p rnd fuel (s rhs r : spline R), (0 < p)%nat -> nearest p rnd ->
  wf s -> wf rhs -> length (degrees rhs) = length (degrees s) ->
  (Z.of_nat (list_max (max_degs (degrees s) (degrees rhs))) < 2 ^ Z.of_nat p)%Z ->
  (Z.of_nat (n_coeffs (max_degs (degrees s) (degrees rhs))) < 2 ^ 31)%Z ->
  (list_max (max_degs (degrees s) (degrees rhs)) < fuel)%nat ->
  spline_sub_assign_fma_s rnd fuel s rhs r ->
  wf r /\ degrees r = max_degs (degrees s) (degrees rhs) /\
  forall B1 B2, coeff_bound s B1 -> coeff_bound rhs B2 ->
    forall xs, length xs = length (degrees s) -> in_unit_box xs ->
      Rabs (value_at r xs - (value_at s xs - value_at rhs xs)) <=
        sum_error p (elevations (degrees s) (degrees rhs)) (elevations (degrees rhs) (degrees s)) B1 B2.
Proof. exact c111_sub_assign_scalar. Qed.
Print Assumptions C111_sub_assign_scalar.
Theorem C111_split : forall p rnd d (s : spline (point R d)) x k l r, (0 < p)%nat -> nearest p rnd ->
  wf s -> (k < length (degrees s))%nat -> 0 < x < 1 -> SplitAtPosition_fma rnd s x k l r ->
  exists l0 r0, SplitAtPosition s x k = Ok [l0; r0] /\
    wf l /\ wf r /\ degrees l = degrees s /\ degrees r = degrees s /\
    forall c B, (c < d)%nat -> coord_bound s c B ->
      (forall i, (i < n_coeffs (degrees s))%nat ->
        Rabs (coord d (nth i (control_points l) v0) c - coord d (nth i (control_points l0) v0) c) <= gamma p (3 * nth k (degrees s) 0%nat) * B /\
        Rabs (coord d (nth i (control_points r) v0) c - coord d (nth i (control_points r0) v0) c) <= gamma p (3 * nth k (degrees s) 0%nat) * B) /\
      forall xs, length xs = length (degrees s) -> in_unit_box xs ->
        Rabs (coord d (value_at l xs) c - coord d (value_at s (upd_list xs k (x * nth k xs 0))) c) <=
          gamma p (3 * nth k (degrees s) 0%nat) * B /\
        Rabs (coord d (value_at r xs) c - coord d (value_at s (upd_list xs k (x + (1 - x) * nth k xs 0))) c) <=
          gamma p (3 * nth k (degrees s) 0%nat) * B.
Proof. exact c111_split. Qed.
Print Assumptions C111_split.
Theorem C111_split_scalar : forall p rnd (s : spline R) x k l r, (0 < p)%nat -> nearest p rnd ->
  wf s -> (k < length (degrees s))%nat -> 0 < x < 1 -> SplitAtPosition_fma_s rnd s x k l r ->
  exists l0 r0, SplitAtPosition s x k = Ok [l0; r0] /\
    wf l /\ wf r /\ degrees l = degrees s /\ degrees r = degrees s /\
    forall B, coeff_bound s B ->
      (forall i, (i < n_coeffs (degrees s))%nat ->
        Rabs (nth i (control_points l) 0 - nth i (control_points l0) 0) <= gamma p (3 * nth k (degrees s) 0%nat) * B /\
        Rabs (nth i (control_points r) 0 - nth i (control_points r0) 0) <= gamma p (3 * nth k (degrees s) 0%nat) * B) /\
      forall xs, length xs = length (degrees s) -> in_unit_box xs ->
        Rabs (value_at l xs - value_at s (upd_list xs k (x * nth k xs 0))) <=
          gamma p (3 * nth k (degrees s) 0%nat) * B /\
        Rabs (value_at r xs - value_at s (upd_list xs k (x + (1 - x) * nth k xs 0))) <=
          gamma p (3 * nth k (degrees s) 0%nat) * B.
Proof. exact c111_split_scalar. Qed.
Print Assumptions C111_split_scalar.
Theorem C111_derivative : forall p rnd MAXB d (s : spline (point R d)) orders r, (0 < p)%nat -> nearest p rnd -> (MAXB <= 68)%nat ->
  wf s -> length orders = length (degrees s) -> Forall2 le orders (degrees s) -> Forall (fun k => (k < MAXB)%nat) orders ->
  DerivativeWRT_fma rnd MAXB s orders r ->
  exists r0, DerivativeWRT MAXB s orders = Ok r0 /\
    wf r /\ wf r0 /\ degrees r = map2 Nat.sub (degrees s) orders /\ degrees r0 = degrees r /\
    forall c B, (c < d)%nat -> coord_bound s c B ->
      (forall i, (i < n_coeffs (degrees r))%nat ->
        Rabs (coord d (nth i (control_points r) v0) c - coord d (nth i (control_points r0) v0) c) <=
          gamma p (derivative_roundings orders) * (derivative_scale (degrees s) orders * B)) /\
      forall xs, length xs = length (degrees s) -> in_unit_box xs ->
        Rabs (coord d (value_at r xs) c - coord d (value_at r0 xs) c) <=
          gamma p (derivative_roundings orders) * (derivative_scale (degrees s) orders * B).
Proof. exact c111_derivative. Qed.
Print Assumptions C111_derivative.
Theorem C111_derivative_scalar : forall p rnd MAXB (s : spline R) orders r, (0 < p)%nat -> nearest p rnd -> (MAXB <= 68)%nat ->
  wf s -> length orders = length (degrees s) -> Forall2 le orders (degrees s) -> Forall (fun k => (k < MAXB)%nat) orders ->
  DerivativeWRT_fma_s rnd MAXB s orders r ->
  exists r0, DerivativeWRT MAXB s orders = Ok r0 /\
    wf r /\ wf r0 /\ degrees r = map2 Nat.sub (degrees s) orders /\ degrees r0 = degrees r /\
    forall B, coeff_bound s B ->
      (forall i, (i < n_coeffs (degrees r))%nat ->
        Rabs (nth i (control_points r) 0 - nth i (control_points r0) 0) <=
          gamma p (derivative_roundings orders) * (derivative_scale (degrees s) orders * B)) /\
      forall xs, length xs = length (degrees s) -> in_unit_box xs ->
        Rabs (value_at r xs - value_at r0 xs) <=
          gamma p (derivative_roundings orders) * (derivative_scale (degrees s) orders * B).
Proof. exact c111_derivative_scalar. Qed.
Print Assumptions C111_derivative_scalar.
(** The results without contraction are among the possible ones; in particular there are results. *)
Theorem C111_plain : forall rnd MAXB fuel d (s rhs : spline (point R d)) k x orders e l r,
  (OrderElevate_rnd rnd s k = Ok e -> OrderElevate_fma rnd s k e) /\
  (spline_add_rnd rnd fuel s rhs = Ok e -> spline_add_fma rnd fuel s rhs e) /\
  (spline_add_assign_rnd rnd fuel s rhs = Ok e -> spline_add_assign_fma rnd fuel s rhs e) /\
  (spline_sub_assign_rnd rnd fuel s rhs = Ok e -> spline_sub_assign_fma rnd fuel s rhs e) /\
  (SplitAtPosition_rnd rnd s x k = Ok [l; r] -> SplitAtPosition_fma rnd s x k l r) /\
  (DerivativeWRT_rnd rnd MAXB s orders = Ok e -> DerivativeWRT_fma rnd MAXB s orders e).
Proof. exact c111_plain. Qed.
Print Assumptions C111_plain.
Theorem C111_plain_scalar : forall rnd MAXB fuel (s rhs : spline R) k x orders e l r,
  (OrderElevate_rnd_s rnd s k = Ok e -> OrderElevate_fma_s rnd s k e) /\
  (spline_add_rnd_s rnd fuel s rhs = Ok e -> spline_add_fma_s rnd fuel s rhs e) /\
  (spline_add_assign_rnd_s rnd fuel s rhs = Ok e -> spline_add_assign_fma_s rnd fuel s rhs e) /\
  (spline_sub_assign_rnd_s rnd fuel s rhs = Ok e -> spline_sub_assign_fma_s rnd fuel s rhs e) /\
  (SplitAtPosition_rnd_s rnd s x k = Ok [l; r] -> SplitAtPosition_fma_s rnd s x k l r) /\
  (DerivativeWRT_rnd_s rnd MAXB s orders = Ok e -> DerivativeWRT_fma_s rnd MAXB s orders e).
Proof. exact c111_plain_scalar. Qed.
Print Assumptions C111_plain_scalar.

Ltac easyZ := match goal with |- (_ < _)%Z => vm_compute; reflexivity end.
(** A parabola and a line in double precision: the sum and the derivative exist, and all their
    values keep the bounds. *)
Example C111_case :
  let s : spline R := mkSpline [2%nat] 3 [1%nat] [1; 3; -5] in
  let l : spline R := mkSpline [1%nat] 2 [1%nat] [2; 4] in
  wf s /\ wf l /\ nearest 53 (round_to 53) /\
  (exists e, spline_add_fma_s (round_to 53) 5 l s e) /\
  (exists a b, SplitAtPosition_fma_s (round_to 53) s (1 / 4) 0 a b) /\
  (forall e, spline_add_fma_s (round_to 53) 5 l s e -> Rabs (value_at e [1 / 2] - (3 + 1 / 2)) <=
    sum_error 53 1 0 4 5) /\
  (forall a b, SplitAtPosition_fma_s (round_to 53) s (1 / 4) 0 a b -> Rabs (value_at b [0] - 11 / 8) <= gamma 53 6 * 5) /\
  (forall e, DerivativeWRT_fma_s (round_to 53) 3 s [1%nat] e -> degrees e = [1%nat] /\
     Rabs (nth 0 (control_points e) 0 - 4) <= gamma 53 7 * 20).
Proof.
  intros s l.
  assert (Hw : wf s) by (repeat split; discriminate). assert (Hl : wf l) by (repeat split; discriminate).
  assert (HR : nearest 53 (round_to 53)) by (apply nearest_round_to; lia).
  assert (Bs : coeff_bound s 5).
  { intros i Hi. cbn in Hi. destruct i as [|[|[|]]]; try lia; cbn; [rewrite Rabs_right|rewrite Rabs_right|rewrite Rabs_left]; lra. }
  assert (Bl : coeff_bound l 4).
  { intros i Hi. cbn in Hi. destruct i as [|[|]]; try lia; cbn; rewrite Rabs_right; lra. }
  repeat (split; [assumption|]). split; [|split; [|split; [|split]]].
  - destruct (c81_add_scalar 53 (round_to 53) 5 l s) with (B1 := 4) (B2 := 5) as (e & E & _); auto; try easyZ; try (cbn; lia).
    exists e. apply (proj1 (proj2 (C111_plain_scalar (round_to 53) 30 5 l s 0 0 [] e e e))). exact E.
  - destruct (c82_split_scalar 53 (round_to 53) s (1 / 4) 0) with (B := 5) as (a & b & _ & _ & E & _); auto; try easyZ; try (cbn; lia); try lra.
    exists a, b. apply (proj1 (proj2 (proj2 (proj2 (proj2 (C111_plain_scalar (round_to 53) 30 5 s s 0 (1 / 4) [] a a b)))))). exact E.
  - intros e H. destruct (C111_add_scalar 53 (round_to 53) 5 l s e) as (_ & _ & K); auto; try easyZ; try (cbn; lia).
    specialize (K 4 5 Bl Bs [1 / 2] eq_refl ltac:(constructor; [lra|constructor])).
    replace (value_at l [1 / 2] + value_at s [1 / 2]) with (3 + 1 / 2) in K; [exact K|]. cbn. lra.
  - intros a b H. destruct (C111_split_scalar 53 (round_to 53) s (1 / 4) 0 a b) as (l0 & r0 & _ & _ & _ & _ & _ & K); auto; try easyZ; try (cbn; lia); try lra.
    destruct (K 5 Bs) as (_ & K2). destruct (K2 [0] eq_refl ltac:(constructor; [lra|constructor])) as (_ & K3).
    cbn [upd_list nth] in K3. replace (value_at s [1 / 4 + (1 - 1 / 4) * 0]) with (11 / 8) in K3 by (cbn; lra). exact K3.
  - intros e H. destruct (C111_derivative_scalar 53 (round_to 53) 3 s [1%nat] e) as (r0 & E0 & _ & _ & D & D0 & K); auto; try easyZ; try (cbn; lia).
    { repeat constructor. }
    split; [exact D|]. destruct (K 5 Bs) as (K1 & _). specialize (K1 0%nat ltac:(rewrite D; cbn; lia)).
    assert (E0' : exists y, DerivativeWRT 3 s [1%nat] = Ok y /\ nth 0 (control_points y) 0 = 4).
    { eexists. split; [reflexivity|]. cbn. lra. }
    destruct E0' as (y & Ey & Vy). rewrite E0 in Ey. injection Ey as <-. rewrite Vy in K1.
    replace (gamma 53 7 * 20) with (gamma 53 (derivative_roundings [1%nat]) * (derivative_scale (degrees s) [1%nat] * 5)); [exact K1|].
    cbn [derivative_scale degrees s falling]. change (derivative_roundings [1%nat]) with 7%nat. simpl INR. simpl pow. ring.
Qed.
