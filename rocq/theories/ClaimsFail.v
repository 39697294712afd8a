(** Objects after an exception. *)
From Coq Require Import Arith Lia List ZArith Bool QArith Qcanon.
From Verif Require Import Prelude Scalar Spec SpecSpline ModelPoint ModelSpline ModelRational ModelSize ModelSize2 ModelFail ProofIndex ProofEval ProofCompose ProofRational ProofSize ProofSize2 ProofFail ClaimsA ClaimsSize2.
Import ListNotations.
Local Open Scope nat_scope.

Lemma c110_outcomes : forall (T V : Type) (o : SOps T) (ov : VOps T V) (limit fuel : nat) (s rhs : spline V) (deg : list nat) (k : nat),
  outcome (UpdateDegrees_in (T := T) limit s deg) = UpdateDegrees_64 (T := T) limit s deg /\
  outcome (OrderElevate_in (T := T) limit s k) = OrderElevate_64 (T := T) limit s k /\
  outcome (spline_add_assign_in (T := T) limit fuel s rhs) = spline_add_assign_64 (T := T) limit fuel s rhs /\
  outcome (spline_sub_assign_in (T := T) limit fuel s rhs) = spline_sub_assign_64 (T := T) limit fuel s rhs.
Proof.
  intros T V o ov limit fuel s rhs deg k. split; [apply UpdateDegrees_out|]. split; [apply OrderElevate_out|]. split; apply assign_out.
Qed.

Lemma c110_update_degrees : forall (T V : Type) (o : SOps T) (ov : VOps T V) (limit : nat) (s : spline V) (deg : list nat),
  (Z.of_nat (n_coeffs deg) < 2 ^ 64)%Z -> limit < n_coeffs deg ->
  UpdateDegrees_in (T := T) limit s deg = (mkSpline deg (n_coeffs deg) (index_offsets s) (control_points s), Throw).
Proof.
  intros T V o ov limit s deg HF HL. unfold UpdateDegrees_in. rewrite count_points_64_ok, w64_id by exact HF.
  destruct (Nat.ltb_spec limit (n_coeffs deg)); [reflexivity|lia].
Qed.

Lemma c110_update_degrees_refuted : forall (T V : Type) (o : SOps T) (ov : VOps T V) (limit : nat) (s : spline V) (p q : nat) (x : T),
  wf s -> degrees s = [p] -> p + 1 <= limit -> limit < q + 1 -> (Z.of_nat (q + 1) < 2 ^ 64)%Z ->
  exists y, UpdateDegrees_in (T := T) limit s [q] = (y, Throw) /\ Evaluate_64 y [x] = UB.
Proof.
  intros T V o ov limit s p q x (Hd & Hn & HO & HC) D Hp Hq HZ. eexists. split.
  { apply c110_update_degrees; replace (n_coeffs [q]) with (q + 1) by (unfold n_coeffs; cbn; lia); auto. }
  assert (HC' : length (control_points s) = p + 1) by (rewrite HC, D; unfold n_coeffs; cbn; lia).
  unfold Evaluate_64. cbn [degrees index_offsets control_points number_of_control_points length].
  rewrite for_up_S. cbn [for_up bind Nat.add]. unfold get at 1. cbn [nth_error bind]. unfold get at 1. cbn [nth_error bind].
  assert (Eo : get (index_offsets s) 0 = Ok 1) by (rewrite HO, D; reflexivity). rewrite Eo. cbn [bind]. rewrite (w64_id (q + 1)) by exact HZ.
  replace (n_coeffs [q]) with (q + 1) by (unfold n_coeffs; cbn; lia). unfold div64. destruct (Nat.eqb_spec (q + 1) 0); [lia|].
  rewrite Nat.div_same by lia. cbn [bind]. rewrite for_up_S. cbn [for_up bind Nat.add]. rewrite !Nat.mul_0_r. change (w64 0) with 0.
  replace (q + 1) with (S q) by lia. cbn [for_up bind]. rewrite Nat.sub_0_r.
  match goal with |- context [for_up 0 q ?f ?a] => set (G := f) end.
  enough (E : for_up 0 q G (control_points s) = UB) by (rewrite E; reflexivity).
  apply (for_up_fails G (fun _ c => length c = p + 1) p); [exact HC'| |lia| |discriminate].
  - intros i b Hi Hb. unfold G. rewrite !Nat.mul_1_r, !Nat.add_0_r. rewrite !(w64_id i) by (unfold fits64; lia). rewrite !(w64_id (i + 1)) by (unfold fits64; lia).

    rewrite (get_ok v0) by lia. cbn [bind]. rewrite (get_ok v0) by lia. cbn [bind]. rewrite set_ok by lia. eexists; split; [reflexivity|]. rewrite length_upd. exact Hb.
  - intros b Hb. unfold G. cbn [Nat.add]. rewrite !Nat.mul_1_r, !Nat.add_0_r. rewrite !(w64_id p) by (unfold fits64; lia). rewrite !(w64_id (p + 1)) by (unfold fits64; lia).

    rewrite (get_ok v0) by lia. cbn [bind]. unfold get. rewrite (proj2 (nth_error_None b _)) by lia. reflexivity.
Qed.

Lemma elevate_count degs k : k < length degs -> n_coeffs degs < n_coeffs (upd_at k S degs).
Proof.
  revert k. induction degs as [|p l IH]; intros [|k] Hk; cbn [length] in Hk; try lia; cbn [upd_at]; rewrite !n_coeffs_cons.
  - pose proof (n_coeffs_pos l). nia.
  - specialize (IH k ltac:(lia)). nia.
Qed.

Lemma c110_elevate : forall (T V : Type) (o : SOps T) (ov : VOps T V) (F : SField T) (M : VMod T V) (limit : nat) (s : spline V) (k : nat),
  wf s -> k < length (degrees s) -> (Z.of_nat (n_coeffs (upd_at k S (degrees s))) < 2 ^ 31)%Z ->
  n_coeffs (degrees s) <= limit -> limit < n_coeffs (upd_at k S (degrees s)) ->
  exists y, OrderElevate_in (T := T) limit s k = (y, Throw) /\ y = recount s (n_coeffs (upd_at k S (degrees s))) /\ ~ wf y /\
    UpdateDegrees_in (T := T) limit y (degrees y) = (s, Ok tt).
Proof.
  intros T V o ov F M limit s k Hw Hk HZ H1 H2. eexists. split; [|split; [reflexivity|split]].
  - destruct (step limit (F := F) (M := M) s (upd_at k S (degrees s)) HZ) with (x := s) (k := k) as [(z & j & E & R)|(y & E & Jy & Dy)]; auto.
    + rewrite upd_at_S, length_upd. reflexivity.
    + apply J_start; auto. rewrite upd_at_S. apply F2_upd_ge. lia.
    + rewrite upd_at_S, nth_upd_same by auto. lia.
    + unfold OrderElevate_in. rewrite (c108_elevate_limit T V o ov) by (auto; pose proof (elevate_count _ _ Hk); lia). f_equal. f_equal.
      pose proof Hw as (_ & Hn & _). rewrite Hn. rewrite upd_at_S, n_coeffs_upd in HZ by auto. rewrite upd_at_S, n_coeffs_upd by auto.
      pose proof (n_coeffs_nth_le (degrees s) k Hk). pose proof (wf_dvd (degrees s) k Hk).
      rewrite !w64_id; auto; try (unfold fits64; lia). rewrite w64_id by (unfold fits64; lia). rewrite w64_id by (unfold fits64; lia). unfold fits64; lia.
    + exfalso. destruct Jy as (_ & _ & _ & Ny & _). rewrite Dy, <- upd_at_S in Ny. lia.
  - intros (_ & Hn & _). cbn [recount number_of_control_points degrees] in Hn. pose proof (elevate_count _ _ Hk). lia.
  - apply repair; auto. unfold fits64. pose proof (elevate_count _ _ Hk). lia.
Qed.

Lemma c110_elevate_refuted :
  exists (s : spline Qc), wf s /\ is_ok (Evaluate_64 s [Q2Qc (1 # 2); Q2Qc (1 # 2)]) /\
  exists y, OrderElevate_in (T := Qc) 5 s 0 = (y, Throw) /\ Evaluate_64 y [Q2Qc (1 # 2); Q2Qc (1 # 2)] = UB.
Proof.
  exists (mkSpline [1; 1] 4 [1; 2] (map Q2Qc [0; 1; 2; 5]%Q)). split; [repeat split; discriminate|].
  split; [eexists; vm_compute; reflexivity|]. eexists. split; [vm_compute; reflexivity|]. vm_compute. reflexivity.
Qed.

Lemma c110_assign : forall (T V : Type) (o : SOps T) (ov : VOps T V) (F : SField T) (M : VMod T V) (limit : nat) (a b : spline V),
  wf a -> wf b -> length (degrees a) = length (degrees b) -> n_coeffs (degrees a) <= limit ->
  let D := map2 Nat.max (degrees a) (degrees b) in
  (Z.of_nat (n_coeffs D) < 2 ^ 31)%Z -> limit < n_coeffs D ->
  exists z y, (forall fuel, list_max D < fuel -> spline_add_assign_in (T := T) limit fuel a b = (y, Throw) /\ spline_sub_assign_in (T := T) limit fuel a b = (y, Throw)) /\
    wf z /\ Forall2 le (degrees a) (degrees z) /\ (forall xs : list T, length xs = length (degrees a) -> Evaluate z xs = Evaluate a xs) /\
    (exists k, k < length (degrees z) /\ y = recount z (n_coeffs (upd_at k S (degrees z)))) /\ ~ wf y /\
    UpdateDegrees_in (T := T) limit y (degrees y) = (z, Ok tt).
Proof.
  intros T V o ov F M limit a b Wa Wb HL Ha D HD Hlim.
  assert (LD : length D = length (degrees a)) by (unfold D; rewrite length_map2; auto).
  pose proof (F2_max_l _ _ HL) as La. pose proof (F2_max_r _ _ HL) as Lb. fold D in La, Lb.
  pose proof (J_start limit a D Wa La Ha) as Ja.
  assert (G : forall fuel, list_max D < fuel -> exists z k, elevate_all_in (T := T) limit fuel (degrees b) a = (recount z (n_coeffs (upd_at k S (degrees z))), Throw) /\
    J limit a D z /\ k < length (degrees z) /\ limit < n_coeffs (upd_at k S (degrees z))).
  { intros fuel Hf. destruct (all_in limit (F := F) (M := M) a D HD LD (degrees b) fuel a Ja) as [(z & k & E & Jz & Hk & _ & Hz)|(y & E & Jy & Dy)]; auto; [lia|exists z, k; auto|].
    exfalso. destruct Jy as (_ & _ & _ & Ny & _). rewrite Dy in Ny. replace (map2 Nat.max (degrees b) (degrees a)) with D in Ny; [lia|].
    unfold D. clear - HL. revert HL. generalize (degrees a) (degrees b). induction l as [|p l IH]; intros [|q m] H; try discriminate; cbn [map2]; auto. f_equal; [lia|]. apply IH. injection H; auto. }
  destruct (G (S (list_max D)) ltac:(lia)) as (z & k & E & (Wz & Az & Dz & Nz & Ez) & Hk & Hz). exists z. eexists. split.
  { intros fuel Hf. assert (E' : elevate_all_in (T := T) limit fuel (degrees b) a = (recount z (n_coeffs (upd_at k S (degrees z))), Throw)).
    { apply (all_fuel limit (S (list_max D))); [lia|exact E|discriminate]. }
    unfold spline_add_assign_in, spline_sub_assign_in, assign_in. rewrite E'. split; reflexivity. }
  split; [exact Wz|]. split; [exact Az|]. split; [exact Ez|]. split; [exists k; auto|]. split.
  - intros (_ & Hn & _). cbn [recount number_of_control_points degrees] in Hn. pose proof (elevate_count _ _ Hk). lia.
  - apply repair; auto. unfold fits64. pose proof (n_coeffs_mono _ _ Dz). lia.
Qed.

Lemma c110_rational_elevate : forall (T V : Type) (o : SOps T) (ov : VOps T V) (F : SField T) (M : VMod T V) (limit limit_w : nat)
  (u : spline V) (w : spline T) (k : nat),
  wf u -> wf w -> degrees w = degrees u -> k < length (degrees u) ->
  let n := n_coeffs (upd_at k S (degrees u)) in
  (Z.of_nat n < 2 ^ 31)%Z -> n_coeffs (degrees u) <= limit -> n_coeffs (degrees u) <= limit_w ->
  (limit < n -> exists y, R_OrderElevate_in limit limit_w (mkR u w) k = (y, Throw) /\ y = mkR (recount u n) w /\
     R_UpdateDegrees_in limit limit_w y (degrees u) = (mkR u w, Ok tt)) /\
  (n <= limit -> limit_w < n -> exists y u', R_OrderElevate_in limit limit_w (mkR u w) k = (y, Throw) /\ y = mkR u' (recount w n) /\
     OrderElevate u k = Ok u' /\ compatible y = false).
Proof.
  intros T V o ov F M limit limit_w u w k Wu Ww Dw Hk n HZ Hu Hw. split.
  - intros HL. destruct (c110_elevate T V o ov F M limit u k Wu Hk HZ Hu HL) as (y & E & -> & _ & R). eexists. split; [|split; [reflexivity|]].
    + unfold R_OrderElevate_in. cbn [weighted_spline weight_function]. rewrite E. reflexivity.
    + unfold R_UpdateDegrees_in. cbn [weighted_spline weight_function].
      assert (Rw : UpdateDegrees_in (T := T) limit_w w (degrees u) = (w, Ok tt)).
      { pose proof (repair limit_w w (number_of_control_points w) Ww) as R'. rewrite Dw in R'. rewrite <- Dw. 
        replace (recount w (number_of_control_points w)) with w in R' by (destruct w; reflexivity). apply R'; auto. unfold fits64. pose proof (elevate_count _ _ Hk). lia. }
      rewrite Rw. cbn [recount degrees] in R. fold n in R. rewrite R. unfold failed, assert_, compatible. cbn [weighted_spline weight_function]. rewrite Dw.
      replace (list_eqb Nat.eqb (degrees u) (degrees u)) with true; [reflexivity|]. symmetry. apply list_eqb_refl.
  - intros H1 H2. destruct (c108_elevate T V o ov limit u k Wu) as (_ & H). destruct (H F M Hk HZ H1) as (u' & E & Wu' & Du' & _). exists (mkR u' (recount w n)), u'.
    split; [|split; [reflexivity|split]].
    + unfold R_OrderElevate_in. cbn [weighted_spline weight_function]. unfold OrderElevate_in at 1. rewrite E.
      destruct (c110_elevate T T o _ F _ limit_w w k Ww) as (y & Ey & -> & _); rewrite ?Dw; auto. rewrite Ey, Dw. reflexivity.
    + destruct (c13_order_elevate T V o ov F M u k Wu Hk HZ) as (u2 & E2 & _ & D2 & _). rewrite E2. f_equal.
      destruct (c108_elevate T V o ov limit u k Wu) as (H3 & _). rewrite (H3 u2 E2) in E by (rewrite D2; auto; fold n; lia). congruence.
    + unfold compatible. cbn [weighted_spline weight_function recount degrees]. rewrite Du', Dw. destruct (list_eqb Nat.eqb _ _) eqn:Eq; [|reflexivity].
      apply list_eqb_eq in Eq. pose proof (elevate_count _ _ Hk). rewrite Eq in H0. lia.
Qed.

Lemma c110_rational_update : forall (T V : Type) (o : SOps T) (ov : VOps T V) (limit limit_w : nat) (u : spline V) (w : spline T) (deg : list nat),
  let n := n_coeffs deg in
  deg <> [] -> (Z.of_nat n < 2 ^ 64)%Z ->
  (limit_w < n -> R_UpdateDegrees_in limit limit_w (mkR u w) deg = (mkR u (mkSpline deg n (index_offsets w) (control_points w)), Throw)) /\
  (n <= limit_w -> limit < n -> exists w', UpdateDegrees w deg = Ok w' /\
     R_UpdateDegrees_in limit limit_w (mkR u w) deg = (mkR (mkSpline deg n (index_offsets u) (control_points u)) w', Throw)).
Proof.
  intros T V o ov limit limit_w u w deg n Hd HF. split.
  - intros HL. unfold R_UpdateDegrees_in. cbn [weighted_spline weight_function]. rewrite (c110_update_degrees T T) by auto. reflexivity.
  - intros H1 H2. eexists. split; [apply UpdateDegrees_ok; auto|]. unfold R_UpdateDegrees_in. cbn [weighted_spline weight_function].
    unfold UpdateDegrees_in at 1. rewrite count_points_64_ok, w64_id by exact HF. fold n. destruct (Nat.ltb_spec limit_w n); [lia|].
    rewrite UpdateIndexOffsets_64_ok, offsets_64_id by auto. rewrite (c110_update_degrees T V) by auto. reflexivity.
Qed.
