(** Sizes in 64 bits: the operations of a rational spline and composition with rational splines. *)
From Coq Require Import Arith Lia List ZArith NArith Bool Reals.
From Verif Require Import Prelude Scalar Spec SpecSpline SpecRational SpecReal Coord ModelBasis ModelPoint ModelSpline ModelRational ModelSize ModelSize2 ModelSize3 ProofBasis ProofIndex ProofEval ProofMul ProofSize ProofSize2 ProofSize3 ProofSize4 ProofRational ClaimsA ClaimsB ClaimsSize ClaimsSize2 ClaimsG ClaimsH ClaimsI.
Import ListNotations.
Local Open Scope nat_scope.

Lemma eval_64_eq {T V} {o : SOps T} {ov : VOps T V} {F : SField T} {M : VMod T V} (s : spline V) xs : wf s -> fits64 (n_coeffs (degrees s)) ->
  length xs = length (degrees s) -> Evaluate_64 s xs = Evaluate s xs.
Proof. intros Hw HF HL. assert (E := c09_evaluate T V o ov F M s xs Hw HL). rewrite E. apply Evaluate_64_same; auto. Qed.
Lemma R_eval_64_eq {T V} {o : SOps T} {ov : VOps T V} {F : SField T} {M : VMod T V} (r : rspline T V) xs : rwf r -> fits64 (n_coeffs (rdegrees r)) ->
  length xs = length (rdegrees r) -> R_Evaluate_64 r xs = R_Evaluate r xs.
Proof.
  intros (Wu & Ww & D) HF HL. unfold R_Evaluate_64, R_Evaluate, rdegrees in *. rewrite eval_64_eq by auto.
  rewrite (eval_64_eq (weight_function r)) by (rewrite ?D; auto). reflexivity.
Qed.

Lemma c112_construct : forall (T V : Type) (o : SOps T) (ov : VOps T V) (limit limit_w : nat) (deg : list nat),
  deg <> [] -> (Z.of_nat (n_coeffs deg) < 2 ^ 64)%Z -> n_coeffs deg <= limit -> n_coeffs deg <= limit_w ->
  R_deg_64 limit limit_w deg = R_deg (T := T) (V := V) deg /\
  (forall (pts : list V) (ws : list T), R_deg_points_64 limit deg pts ws = R_deg_points deg pts ws) /\
  (forall r : rspline T V, R_UpdateDegrees_64 limit limit_w r deg = R_UpdateDegrees r deg) /\
  (forall s : spline V, degrees s = deg -> R_of_spline_64 s = R_of_spline (T := T) s).
Proof.
  intros T V o ov lv lw deg Hd HF H1 H2. split; [|split; [|split]].
  - unfold R_deg_64, R_deg. rewrite !Spline_deg_64_same by auto. reflexivity.
  - intros pts ws. unfold R_deg_points_64, R_deg_points. rewrite Spline_deg_64_same, mk_64 by auto. reflexivity.
  - intros r. unfold R_UpdateDegrees_64, R_UpdateDegrees. rewrite !update_64 by auto. reflexivity.
  - intros s Ds. unfold R_of_spline_64, R_of_spline. rewrite mk_64 by (rewrite Ds; auto). reflexivity.
Qed.
Lemma c112_construct_limit : forall (T V : Type) (o : SOps T) (ov : VOps T V) (limit limit_w : nat) (deg : list nat),
  deg <> [] -> (Z.of_nat (n_coeffs deg) < 2 ^ 64)%Z -> limit < n_coeffs deg \/ limit_w < n_coeffs deg ->
  R_deg_64 (T := T) (V := V) limit limit_w deg = Throw /\
  (limit < n_coeffs deg -> forall (pts : list V) (ws : list T), R_deg_points_64 limit deg pts ws = Throw) /\
  (forall r : rspline T V, R_UpdateDegrees_64 limit limit_w r deg = Throw).
Proof.
  intros T V o ov lv lw deg Hd HF HL.
  assert (A : forall l (W : Type) (ow : VOps T W), l < n_coeffs deg -> Spline_deg_64 (ov := ow) l deg = Throw /\ forall s : spline W, UpdateDegrees_64 l s deg = Throw).
  { intros l W ow H. unfold Spline_deg_64, UpdateDegrees_64. rewrite count_points_64_ok. cbn [bind]. rewrite w64_id by auto. destruct (Nat.ltb_spec l (n_coeffs deg)); [auto|lia]. }
  assert (B : forall l (W : Type) (ow : VOps T W), n_coeffs deg <= l -> (exists u, Spline_deg_64 (ov := ow) l deg = Ok u) /\ forall s : spline W, exists u, UpdateDegrees_64 l s deg = Ok u).
  { intros l W ow H. rewrite Spline_deg_64_same, Spline_deg_ok by auto. split; [eauto|]. intros s. unfold UpdateDegrees_64. rewrite count_points_64_ok. cbn [bind]. rewrite w64_id by auto.
    destruct (Nat.ltb_spec l (n_coeffs deg)); [lia|]. rewrite UpdateIndexOffsets_64_ok by auto. cbn [bind]. eauto. }
  split; [|split].
  - unfold R_deg_64. destruct (Nat.lt_ge_cases lv (n_coeffs deg)) as [H|H]; [now rewrite (proj1 (A _ _ _ H))|].
    destruct (proj1 (B lv V ov H)) as (u & ->). cbn [bind]. now rewrite (proj1 (A lw T _ ltac:(lia))).
  - intros H pts ws. unfold R_deg_points_64. now rewrite (proj1 (A _ _ _ H)).
  - intros r. unfold R_UpdateDegrees_64. destruct (Nat.lt_ge_cases lw (n_coeffs deg)) as [H|H]; [now rewrite (proj2 (A _ _ _ H))|].
    destruct (proj2 (B lw T _ H) (weight_function r)) as (u & ->). cbn [bind]. now rewrite (proj2 (A lv V ov ltac:(lia))).
Qed.
Lemma c112_evaluate : forall (T V : Type) (o : SOps T) (ov : VOps T V) (r : rspline T V),
  rwf r -> (Z.of_nat (n_coeffs (rdegrees r)) < 2 ^ 64)%Z ->
  (forall idx v, R_ControlPoint r idx = Ok v -> R_ControlPoint_64 r idx = Ok v) /\
  (forall xs v, R_Evaluate r xs = Ok v -> R_Evaluate_64 r xs = Ok v) /\
  (SField T -> VMod T V -> forall xs, length xs = length (rdegrees r) -> R_Evaluate_64 r xs = R_Evaluate r xs).
Proof.
  intros T V o ov r Hr HF. split; [|split].
  - intros idx v. apply R_ControlPoint_64_same; auto.
  - intros xs v. apply R_Evaluate_64_same; auto.
  - intros F M xs HL. apply R_eval_64_eq; auto.
Qed.
Lemma c112_elevate : forall (T V : Type) (o : SOps T) (ov : VOps T V) (limit limit_w : nat) (r : rspline T V) (k : nat), rwf r ->
  (forall r', R_OrderElevate r k = Ok r' -> (Z.of_nat (n_coeffs (rdegrees r')) < 2 ^ 64)%Z ->
     n_coeffs (rdegrees r') <= limit -> n_coeffs (rdegrees r') <= limit_w -> R_OrderElevate_64 limit limit_w r k = Ok r') /\
  (SField T -> VMod T V -> k < length (rdegrees r) -> (Z.of_nat (n_coeffs (upd_at k S (rdegrees r))) < 2 ^ 31)%Z ->
   (n_coeffs (upd_at k S (rdegrees r)) <= limit -> n_coeffs (upd_at k S (rdegrees r)) <= limit_w ->
    exists r', R_OrderElevate_64 limit limit_w r k = Ok r' /\ rwf r' /\ rdegrees r' = upd_at k S (rdegrees r) /\
      forall xs : list T, length xs = length (rdegrees r) -> R_Evaluate_64 r' xs = R_Evaluate_64 r xs) /\
   (limit < n_coeffs (upd_at k S (rdegrees r)) \/ limit_w < n_coeffs (upd_at k S (rdegrees r)) ->
    R_OrderElevate_64 limit limit_w r k = Throw)).
Proof.
  intros T V o ov lv lw r k Hr. split; [intros r' E HF H1 H2; apply R_OrderElevate_64_same; auto; repeat split; auto|].
  intros F M Hk HF. assert (Le : n_coeffs (rdegrees r) <= n_coeffs (upd_at k S (rdegrees r))).
  { rewrite upd_at_S. apply n_coeffs_mono. apply F2_upd_ge. lia. }
  split.
  - intros H1 H2. destruct (c42_order_elevate T V o ov F M r k Hr Hk HF) as (r' & E & Wr' & Dr' & Ev). exists r'.
    assert (F64 : fits64 (n_coeffs (rdegrees r'))) by (rewrite Dr'; unfold fits64; lia).
    split; [apply R_OrderElevate_64_same; auto; repeat split; auto; rewrite Dr'; auto|]. do 2 (split; [assumption|]). intros xs Hx.
    rewrite R_eval_64_eq by (auto; rewrite Dr', upd_at_S, length_upd; auto). rewrite R_eval_64_eq by (auto; unfold fits64; lia). apply Ev. auto.
  - intros HL. destruct Hr as (Wu & Ww & D). unfold R_OrderElevate_64, rdegrees in *. destruct (Nat.lt_ge_cases lv (n_coeffs (upd_at k S (degrees (weighted_spline r))))) as [H|H].
    + rewrite c108_elevate_limit; auto; lia.
    + destruct (proj2 (c108_elevate T V o ov lv (weighted_spline r) k Wu) F M Hk HF H) as (u & E & _). rewrite E. cbn [bind].
      rewrite c108_elevate_limit; auto; rewrite ?D; auto; lia.
Qed.
Lemma c112_split : forall (T V : Type) (o : SOps T) (ov : VOps T V) (r : rspline T V) (k : nat),
  rwf r -> (Z.of_nat (n_coeffs (rdegrees r)) < 2 ^ 64)%Z ->
  (forall x parts, R_SplitAtPosition r x k = Ok parts -> R_SplitAtPosition_64 r x k = Ok parts) /\
  (forall planes parts, R_SplitAtPositions r planes k = Ok parts -> R_SplitAtPositions_64 r planes k = Ok parts) /\
  (SField T -> VMod T V -> SOrder T -> forall x, k < length (rdegrees r) -> slt s0 x -> slt x s1 ->
   exists a b, R_SplitAtPosition_64 r x k = Ok [a; b] /\ rwf a /\ rwf b /\
     rdegrees a = rdegrees r /\ rdegrees b = rdegrees r /\
     forall xs : list T, length xs = length (rdegrees r) ->
       R_Evaluate_64 a xs = R_Evaluate_64 r (upd_list xs k (smul x (nth k xs s0))) /\
       R_Evaluate_64 b xs = R_Evaluate_64 r (upd_list xs k (sadd x (smul (ssub s1 x) (nth k xs s0))))).
Proof.
  intros T V o ov r k Hr HF. split; [intros x parts E; apply R_SplitAtPosition_64_same; auto|]. split; [intros xs parts E; apply R_SplitAtPositions_64_same; auto|].
  intros F M O x Hk H0 H1. destruct (c42_split T V o ov F M O r x k Hr Hk H0 H1) as (a & b & E & Wa & Wb & Da & Db & Ev). exists a, b.
  split; [apply R_SplitAtPosition_64_same; auto|]. do 4 (split; [assumption|]). intros xs Hx.
  rewrite !R_eval_64_eq by (auto; rewrite ?Da, ?Db, ?length_upd; auto). apply Ev. auto.
Qed.
Lemma sums_degrees {T V} {o : SOps T} {ov : VOps T V} MAXB fuel (r s c : rspline T V) : MAXB <= 68 -> rwf r -> rwf s -> length (rdegrees s) = length (rdegrees r) ->
  fits64 (n_coeffs (map2 Nat.add (rdegrees r) (rdegrees s))) ->
  R_add MAXB fuel r s = Ok c \/ R_sub MAXB fuel r s = Ok c -> Forall2 le (rdegrees c) (map2 Nat.add (rdegrees r) (rdegrees s)).
Proof.
  intros HB Wr Ws L HF [E|E]; unfold R_add, R_sub in E; destruct (spline_eqb _ _).
  1, 3: apply bind_ok in E; destruct E as (u & _ & E); destruct (R_mk_inv _ _ _ E) as (-> & Dc); unfold rdegrees at 1; cbn [weighted_spline]; rewrite <- Dc;
    destruct Wr as (_ & _ & ->); apply F2_add_l; auto.
  all: do 3 (apply bind_ok in E; destruct E as (? & _ & E)); apply bind_ok in E; destruct E as (w & Ew & E); destruct (R_mk_inv _ _ _ E) as (-> & Dc);
    unfold rdegrees at 1; cbn [weighted_spline]; rewrite <- Dc;
    destruct (prod_ss _ _ MAXB HB r s Wr Ws L (conj HF (conj (le_n _) (le_n _))) w Ew) as (_ & _ & ->); apply F2_refl.
Qed.
Lemma c112_sums : forall (T V : Type) (o : SOps T) (ov : VOps T V) (limit limit_w MAXB fuel : nat) (r s : rspline T V),
  MAXB <= 68 -> rwf r -> rwf s -> length (rdegrees s) = length (rdegrees r) ->
  (Z.of_nat (n_coeffs (map2 Nat.add (rdegrees r) (rdegrees s))) < 2 ^ 64)%Z ->
  n_coeffs (map2 Nat.add (rdegrees r) (rdegrees s)) <= limit -> n_coeffs (map2 Nat.add (rdegrees r) (rdegrees s)) <= limit_w ->
  forall c,
  (R_add MAXB fuel r s = Ok c -> R_add_64 limit limit_w MAXB fuel r s = Ok c) /\
  (R_add_assign MAXB fuel r s = Ok c -> R_add_assign_64 limit limit_w MAXB fuel r s = Ok c) /\
  (R_sub MAXB fuel r s = Ok c -> R_sub_64 limit limit_w MAXB fuel r s = Ok c) /\
  (R_sub_assign MAXB fuel r s = Ok c -> R_sub_assign_64 limit limit_w MAXB fuel r s = Ok c).
Proof. intros T V o ov lv lw MAXB fuel r s HB Wr Ws L HF H1 H2 c. apply sums_64; auto. repeat split; auto. Qed.
Lemma c112_sums_values : forall (T V : Type) (o : SOps T) (ov : VOps T V) (F : SField T) (M : VMod T V) (limit limit_w MAXB fuel : nat) (r s : rspline T V),
  MAXB <= 68 -> rwf r -> rwf s -> length (rdegrees s) = length (rdegrees r) ->
  Forall (fun p => p < MAXB) (map2 Nat.add (rdegrees r) (rdegrees s)) ->
  (Z.of_nat (n_coeffs (map2 Nat.add (rdegrees r) (rdegrees s))) < 2 ^ 31)%Z ->
  n_coeffs (map2 Nat.add (rdegrees r) (rdegrees s)) <= limit -> n_coeffs (map2 Nat.add (rdegrees r) (rdegrees s)) <= limit_w ->
  list_max (map2 Nat.add (rdegrees r) (rdegrees s)) + 1 < fuel ->
  (exists c, R_add_64 limit limit_w MAXB fuel r s = Ok c /\ R_add_assign_64 limit limit_w MAXB fuel r s = Ok c /\ rwf c /\
     forall xs : list T, rdomain r xs -> rdomain s xs ->
       exists a b, R_Evaluate_64 r xs = Ok a /\ R_Evaluate_64 s xs = Ok b /\ R_Evaluate_64 c xs = Ok (vadd a b)) /\
  (exists c, R_sub_64 limit limit_w MAXB fuel r s = Ok c /\ R_sub_assign_64 limit limit_w MAXB fuel r s = Ok c /\ rwf c /\
     forall xs : list T, rdomain r xs -> rdomain s xs ->
       exists a b, R_Evaluate_64 r xs = Ok a /\ R_Evaluate_64 s xs = Ok b /\ R_Evaluate_64 c xs = Ok (vsub a b)).
Proof.
  intros T V o ov F M lv lw MAXB fuel r s HB Wr Ws L HM HF H1 H2 Hf.
  assert (HF' : fits64 (n_coeffs (map2 Nat.add (rdegrees r) (rdegrees s)))) by (unfold fits64; lia).
  assert (Fr : fits64 (n_coeffs (rdegrees r))) by (eapply fits64_le; [apply n_coeffs_mono; apply F2_add_l; exact L|exact HF']).
  assert (Fs : fits64 (n_coeffs (rdegrees s))) by (eapply fits64_le; [apply n_coeffs_mono; apply F2_add_r; exact L|exact HF']).
  destruct (c40_add_sub T V o ov F M MAXB fuel r s HB Wr Ws L HM HF Hf) as ((c & E1 & E2 & Wc & Ev) & (c' & E3 & E4 & Wc' & Ev')).
  assert (Fc : fits64 (n_coeffs (rdegrees c))) by (eapply fits64_le; [apply n_coeffs_mono; eapply sums_degrees; [| | | | |left; exact E1]; eauto|exact HF']).
  assert (Fc' : fits64 (n_coeffs (rdegrees c'))) by (eapply fits64_le; [apply n_coeffs_mono; eapply sums_degrees; [| | | | |right; exact E3]; eauto|exact HF']).
  split; [exists c|exists c']; (split; [apply (c112_sums T V o ov lv lw MAXB fuel r s HB Wr Ws L HF' H1 H2); auto|]);
    (split; [apply (c112_sums T V o ov lv lw MAXB fuel r s HB Wr Ws L HF' H1 H2); auto|]); (split; [assumption|]); intros xs Dr Ds.
  - destruct (Ev xs Dr Ds) as (a & b & A1 & A2 & A3). exists a, b. repeat split; apply R_Evaluate_64_same; auto.
  - destruct (Ev' xs Dr Ds) as (a & b & A1 & A2 & A3). exists a, b. repeat split; apply R_Evaluate_64_same; auto.
Qed.
Lemma c112_product : forall (T V1 V2 V3 : Type) (o : SOps T) (o3 : VOps T V3) (pmul : V1 -> V2 -> V3) (limit limit_w MAXB : nat)
  (r : rspline T V1) (s : rspline T V2) c,
  MAXB <= 68 -> rwf r -> rwf s -> length (rdegrees s) = length (rdegrees r) ->
  (Z.of_nat (n_coeffs (map2 Nat.add (rdegrees r) (rdegrees s))) < 2 ^ 64)%Z ->
  n_coeffs (map2 Nat.add (rdegrees r) (rdegrees s)) <= limit -> n_coeffs (map2 Nat.add (rdegrees r) (rdegrees s)) <= limit_w ->
  R_mul MAXB pmul r s = Ok c -> R_mul_64 limit limit_w MAXB pmul r s = Ok c.
Proof. intros T V1 V2 V3 o o3 pmul lv lw MAXB r s c HB Wr Ws L HF H1 H2 E. apply R_mul_64_same; auto. repeat split; auto. Qed.
Lemma c112_product_values : forall (T V : Type) (o : SOps T) (ov : VOps T V) (F : SField T) (M : VMod T V) (limit limit_w MAXB : nat)
  (r : rspline T V) (s : rspline T T),
  MAXB <= 68 -> rwf r -> rwf s -> length (rdegrees s) = length (rdegrees r) ->
  Forall (fun p => p < MAXB) (map2 Nat.add (rdegrees r) (rdegrees s)) ->
  (Z.of_nat (n_coeffs (map2 Nat.add (rdegrees r) (rdegrees s))) < 2 ^ 64)%Z ->
  n_coeffs (map2 Nat.add (rdegrees r) (rdegrees s)) <= limit -> n_coeffs (map2 Nat.add (rdegrees r) (rdegrees s)) <= limit_w ->
  exists c : rspline T V, R_mul_64 limit limit_w MAXB (fun p k => vscale k p) r s = Ok c /\ rwf c /\
    rdegrees c = map2 Nat.add (rdegrees r) (rdegrees s) /\
    forall xs : list T, rdomain r xs -> rdomain s xs ->
      exists p k, R_Evaluate_64 r xs = Ok p /\ R_Evaluate_64 s xs = Ok k /\ R_Evaluate_64 c xs = Ok (vscale k p).
Proof.
  intros T V o ov F M lv lw MAXB r s HB Wr Ws L HM HF H1 H2.
  destruct (c40_product_point_scalar T V o ov F M MAXB r s HB Wr Ws L HM) as (c & E & Wc & Dc & Ev). exists c.
  assert (Fr : fits64 (n_coeffs (rdegrees r))) by (eapply fits64_le; [apply n_coeffs_mono; apply F2_add_l; exact L|exact HF]).
  assert (Fs : fits64 (n_coeffs (rdegrees s))) by (eapply fits64_le; [apply n_coeffs_mono; apply F2_add_r; exact L|exact HF]).
  split; [apply R_mul_64_same; auto; repeat split; auto|]. do 2 (split; [assumption|]). intros xs Dr Ds.
  destruct (Ev xs Dr Ds) as (a & b & A1 & A2 & A3). exists a, b. repeat split; apply R_Evaluate_64_same; auto. unfold fits64. rewrite Dc. exact HF.
Qed.
Lemma c112_derivative : forall (T V : Type) (o : SOps T) (ov : VOps T V) (limit limit_w MAXB fuel : nat) (r r' : rspline T V) (orders : list nat),
  MAXB <= 68 -> rwf r -> let final := map (Nat.mul (2 ^ list_sum orders)) (rdegrees r) in
  (Z.of_nat (n_coeffs final) < 2 ^ 64)%Z -> n_coeffs final <= limit -> n_coeffs final <= limit_w ->
  R_DerivativeWRT MAXB fuel r orders = Ok r' -> R_DerivativeWRT_64 limit limit_w MAXB fuel r orders = Ok r'.
Proof. intros T V o ov lv lw MAXB fuel r r' ks HB Wr final HF H1 H2 E. apply R_DerivativeWRT_64_same; auto. repeat split; auto. Qed.
Lemma c112_derivative_values : forall (V : Type) (ov : VOps R V) (M : VMod R V) (limit limit_w MAXB fuel : nat)
  (r : rspline R V) (orders : list nat),
  MAXB <= 68 -> rwf r -> length orders = length (rdegrees r) ->
  (forall k, k < length orders -> 0 < nth k orders 0 -> 1 <= nth k (rdegrees r) 0) ->
  let final := map (Nat.mul (2 ^ list_sum orders)) (rdegrees r) in
  Forall (fun p => p < MAXB) final -> (Z.of_nat (n_coeffs final) < 2 ^ 31)%Z -> n_coeffs final <= limit -> n_coeffs final <= limit_w ->
  list_max final + 1 < fuel ->
  exists r' f g, R_DerivativeWRT_64 limit limit_w MAXB fuel r orders = Ok r' /\ rwf r' /\ rdegrees r' = final /\
    (forall xs : list R, rdomain r xs -> R_Evaluate_64 r xs = Ok (f xs) /\ R_Evaluate_64 r' xs = Ok (g xs)) /\
    forall (phi : V -> R) dirs, linear_form phi -> directions_of orders dirs ->
      mixed (rdomain r) dirs (fun xs => phi (f xs)) (fun xs => phi (g xs)).
Proof.
  intros V ov M lv lw MAXB fuel r ks HB Wr L Hd final HM HF H1 H2 Hf.
  destruct (c39_derivative_spline V ov M MAXB fuel r ks HB Wr L Hd HM HF Hf) as (r' & f & g & E & Wr' & Dr' & Ev & Dv). exists r', f, g.
  assert (F64 : fits64 (n_coeffs final)) by (unfold fits64; lia).
  assert (Fr : fits64 (n_coeffs (rdegrees r))).
  { eapply fits64_le; [|exact F64]. apply n_coeffs_mono. unfold final. rewrite <- (ProofSize3.map_mul_1 (rdegrees r)) at 1. apply map_mul_le.
    pose proof (Nat.pow_nonzero 2 (list_sum ks)). lia. }
  split; [apply R_DerivativeWRT_64_same; auto; repeat split; auto|]. do 2 (split; [assumption|]). split; [|exact Dv].
  intros xs Dx. destruct (Ev xs Dx) as (A & B). split; apply R_Evaluate_64_same; auto. rewrite Dr'. exact F64.
Qed.
Lemma sum_deg {V} (s : spline V) : sum_degrees s = list_sum (degrees s).
Proof. unfold sum_degrees. rewrite fold_add_sum. reflexivity. Qed.
Lemma c112_compose_pr : forall (T V : Type) (o : SOps T) (ov : VOps T V) (limit MAXB fuel d : nat) (outer : spline V) (inner : rspline T (point T d)),
  MAXB <= 68 -> wf outer -> rwf inner ->
  (Z.of_nat (n_coeffs (degrees outer)) < 2 ^ 64)%Z ->
  (Z.of_nat (n_coeffs (rdegrees inner)) < 2 ^ 64)%Z -> n_coeffs (rdegrees inner) <= limit ->
  (Z.of_nat (n_coeffs (map (Nat.mul (list_sum (degrees outer))) (rdegrees inner))) < 2 ^ 64)%Z ->
  n_coeffs (map (Nat.mul (list_sum (degrees outer))) (rdegrees inner)) <= limit ->
  (forall r, Compose_PR MAXB fuel outer inner = Ok r -> Compose_PR_64 limit MAXB fuel outer inner = Ok r) /\
  (forall l, ComposeSensitivity_PR MAXB fuel outer inner = Ok l -> ComposeSensitivity_PR_64 limit MAXB fuel outer inner = Ok l).
Proof.
  intros T V o ov limit MAXB fuel d outer inner HB Wo Wi Fo Fi Li HF HL. rewrite <- sum_deg in HF, HL.
  destruct (numerator_64 limit MAXB fuel HB inner Wi Fi Li outer Wo Fo HF HL) as (N1 & N2 & N3).
  split; intros r E; unfold Compose_PR, Compose_PR_64, ComposeSensitivity_PR, ComposeSensitivity_PR_64 in *;
    apply bind_ok in E; destruct E as (b & E1 & E); rewrite (R_Fits_64_same _ _ Wi Fi E1); cbn [bind]; (destruct (negb b); [discriminate|]);
    apply bind_ok in E; destruct E as (u & E2 & E); [rewrite (N1 _ E2)|rewrite (N2 _ E2)]; cbn [bind];
    apply bind_ok in E; destruct E as (w & E3 & E); rewrite (N3 _ E3); exact E.
Qed.
Lemma c112_compose_rp : forall (T V : Type) (o : SOps T) (ov : VOps T V) (limit MAXB d : nat) (outer : rspline T V) (inner : spline (point T d)),
  MAXB <= 68 -> rwf outer -> wf inner ->
  (Z.of_nat (n_coeffs (rdegrees outer)) < 2 ^ 64)%Z ->
  (Z.of_nat (n_coeffs (degrees inner)) < 2 ^ 64)%Z -> n_coeffs (degrees inner) <= limit ->
  (Z.of_nat (n_coeffs (map (Nat.mul (list_sum (rdegrees outer))) (degrees inner))) < 2 ^ 64)%Z ->
  n_coeffs (map (Nat.mul (list_sum (rdegrees outer))) (degrees inner)) <= limit ->
  (forall r, Compose_RP MAXB outer inner = Ok r -> Compose_RP_64 limit MAXB outer inner = Ok r) /\
  (forall l, ComposeSensitivity_RP MAXB outer inner = Ok l -> ComposeSensitivity_RP_64 limit MAXB outer inner = Ok l).
Proof.
  intros T V o ov limit MAXB d outer inner HB (Wu & Ww & D) Wi Fo Fi Li HF HL. unfold rdegrees in *.
  destruct (c108_compose T V o ov limit MAXB d (weighted_spline outer) inner HB Wu Wi Fo Fi Li HF HL) as (N1 & N2).
  assert (N3 : forall r, Compose MAXB (weight_function outer) inner = Ok r -> Compose_64 limit MAXB (weight_function outer) inner = Ok r).
  { apply c108_compose; auto; rewrite D; auto. }
  split; intros r E; unfold Compose_RP, Compose_RP_64, ComposeSensitivity_RP, ComposeSensitivity_RP_64 in *;
    apply bind_ok in E; destruct E as (u & E2 & E); [rewrite (N1 _ E2)|rewrite (N2 _ E2)]; cbn [bind];
    apply bind_ok in E; destruct E as (w & E3 & E); rewrite (N3 _ E3); exact E.
Qed.
Lemma c112_compose_rr : forall (T V : Type) (o : SOps T) (ov : VOps T V) (limit MAXB fuel d : nat) (outer : rspline T V) (inner : rspline T (point T d)),
  MAXB <= 68 -> rwf outer -> rwf inner ->
  (Z.of_nat (n_coeffs (rdegrees outer)) < 2 ^ 64)%Z ->
  (Z.of_nat (n_coeffs (rdegrees inner)) < 2 ^ 64)%Z -> n_coeffs (rdegrees inner) <= limit ->
  (Z.of_nat (n_coeffs (map (Nat.mul (list_sum (rdegrees outer))) (rdegrees inner))) < 2 ^ 64)%Z ->
  n_coeffs (map (Nat.mul (list_sum (rdegrees outer))) (rdegrees inner)) <= limit ->
  (forall r, Compose_RR MAXB fuel outer inner = Ok r -> Compose_RR_64 limit MAXB fuel outer inner = Ok r) /\
  (forall l, ComposeSensitivity_RR MAXB fuel outer inner = Ok l -> ComposeSensitivity_RR_64 limit MAXB fuel outer inner = Ok l).
Proof.
  intros T V o ov limit MAXB fuel d outer inner HB (Wu & Ww & D) Wi Fo Fi Li HF HL. unfold rdegrees at 1 in Fo. unfold rdegrees at 1 in HF. unfold rdegrees at 1 in HL.
  destruct (numerator_64 limit MAXB fuel HB inner Wi Fi Li (weighted_spline outer) Wu Fo) as (N1 & N2 & _); [rewrite sum_deg; exact HF|rewrite sum_deg; exact HL|].
  destruct (numerator_64 limit MAXB fuel HB inner Wi Fi Li (weight_function outer) Ww) as (N3 & _ & _); [rewrite D; exact Fo|rewrite sum_deg, D; exact HF|rewrite sum_deg, D; exact HL|].
  split; intros r E; unfold Compose_RR, Compose_RR_64, ComposeSensitivity_RR, ComposeSensitivity_RR_64 in *;
    apply bind_ok in E; destruct E as (u & E2 & E); [rewrite (N1 _ E2)|rewrite (N2 _ E2)]; cbn [bind];
    apply bind_ok in E; destruct E as (w & E3 & E); rewrite (N3 _ E3); exact E.
Qed.
Lemma c112_compose_values : forall (T V : Type) (o : SOps T) (ov : VOps T V) (F : SField T) (M : VMod T V)
  (limit MAXB fuel : nat) (outer : rspline T V) (inner : rspline T (point T (length (rdegrees outer)))),
  MAXB <= 68 -> rwf outer -> rwf inner ->
  (Z.of_nat (n_coeffs (rdegrees outer)) < 2 ^ 64)%Z ->
  (Z.of_nat (n_coeffs (rdegrees inner)) < 2 ^ 31)%Z -> n_coeffs (rdegrees inner) <= limit ->
  (Z.of_nat (n_coeffs (map (Nat.mul (list_sum (rdegrees outer))) (rdegrees inner))) < 2 ^ 64)%Z ->
  n_coeffs (map (Nat.mul (list_sum (rdegrees outer))) (rdegrees inner)) <= limit ->
  Forall (fun p => list_sum (rdegrees outer) * p < MAXB) (rdegrees inner) ->
  Forall (fun p => p < MAXB) (rdegrees outer) -> list_max (rdegrees inner) + 1 < fuel ->
  exists r, Compose_RR_64 limit MAXB fuel outer inner = Ok r /\ rwf r /\
    rdegrees r = map (fun p => list_sum (rdegrees outer) * p) (rdegrees inner) /\
    forall xs : list T, rdomain inner xs ->
      exists p, R_Evaluate_64 inner xs = Ok p /\ R_Evaluate_64 r xs = R_Evaluate_64 outer (plist _ p) /\
        (rdomain outer (plist _ p) -> is_ok (R_Evaluate_64 r xs)).
Proof.
  intros T V o ov F M limit MAXB fuel outer inner HB Wo Wi Fo Fi Li HF HL H1 H2 Hf.
  destruct (c30_rational_of_rational T V o ov F M MAXB fuel outer inner HB Wo Wi H1 H2 Fi Hf) as (r & E & Wr & Dr & Ev). exists r.
  split; [apply c112_compose_rr; auto; lia|]. do 2 (split; [assumption|]). intros xs Dx. destruct (Ev xs Dx) as (p & E1 & E2 & E3). exists p.
  assert (Er : R_Evaluate_64 r xs = R_Evaluate r xs).
  { apply R_eval_64_eq; auto; [unfold fits64; rewrite Dr; exact HF|]. rewrite Dr, map_length. apply Dx. }
  split; [apply R_Evaluate_64_same; auto; unfold fits64; lia|]. rewrite Er. split; [|exact E3]. rewrite E2. symmetry. apply R_eval_64_eq; auto. apply plist_length.
Qed.

(** A direction of degree zero. *)
Lemma empty_mul {T V1 V2 V3} {o : SOps T} {o3 : VOps T V3} limit MAXB (pmul : V1 -> V2 -> V3) (P : spline V1) (Q : spline V2) k t :
  length (degrees Q) = length (degrees P) -> k < length (degrees P) -> nth k (degrees P) 0 = t -> Z.of_nat t = (2 ^ 64 - 1)%Z -> nth k (degrees Q) 0 = 0 ->
  exists pd, spline_mul_64 limit MAXB pmul P Q = Ok (mkSpline pd 0 (map w64 (offsets pd)) []) /\ length pd = length (degrees P) /\
    forall j, j < length pd -> nth j pd 0 = w64 (nth j (degrees P) 0 + nth j (degrees Q) 0).
Proof.
  intros L Hk Ht Hz Hq. unfold spline_mul_64. set (n := length (degrees P)) in *.
  match goal with |- exists pd, bind (for_up 0 n ?f ?a) _ = _ /\ _ => destruct (for_up_inv (fun i pd => length pd = n /\ forall j, j < i -> nth j pd 0 = w64 (nth j (degrees P) 0 + nth j (degrees Q) 0)) f n 0 a) as (pd & E & Lp & Np) end.
  - split; [apply repeat_length|intros; lia].
  - intros i pd Hi (Lp & Np). rewrite !(get_ok 0) by lia. cbn [bind]. rewrite set_ok by lia. eexists. split; [reflexivity|]. split; [rewrite length_upd; auto|].
    intros j Hj. rewrite nth_upd by lia. destruct (Nat.eqb_spec j i) as [->|Hne]; [reflexivity|apply Np; lia].
  - exists pd. rewrite E. cbn [bind]. assert (Nk : nth k pd 0 = t).
    { rewrite Np by lia. rewrite Ht, Hq, Nat.add_0_r. apply w64_id. unfold fits64. lia. }
    unfold Spline_deg_64. rewrite count_points_64_ok. cbn [bind]. rewrite (n_coeffs_wrap pd k t) by (auto; lia).
    destruct (Nat.ltb_spec limit 0); [lia|]. rewrite UpdateIndexOffsets_64_ok by (intros ->; cbn in Lp; lia). cbn [bind number_of_control_points for_up repeat].
    split; [reflexivity|]. split; [exact Lp|]. intros j Hj. apply Np. lia.
Qed.
Lemma empty_sub {T V} {o : SOps T} {ov : VOps T V} limit fuel pd k t : k < length pd -> nth k pd 0 = t -> Z.of_nat t = (2 ^ 64 - 1)%Z ->
  let a : spline V := mkSpline pd 0 (map w64 (offsets pd)) [] in
  spline_sub_64 limit (S fuel) a a = Ok a.
Proof.
  intros Hk Ht Hz a. assert (Hd : pd <> []) by (intros ->; cbn in Hk; lia). unfold spline_sub_64. change (degrees a) with pd. change (control_points a) with (@nil V).
  unfold Spline_deg_points_64. rewrite count_points_64_ok. cbn [bind]. rewrite (n_coeffs_wrap pd k t), UpdateIndexOffsets_64_ok by auto. cbn [bind assert_ length Nat.eqb]. fold a.
  match goal with |- bind (for_up 0 ?n ?f a) _ = _ => destruct (for_up_inv (fun _ x => x = a) f n 0 a) as (x & E & ->) end; [reflexivity| |rewrite E; cbn [bind]].
  { intros i x Hi ->. rewrite (get_ok 0) by lia. cbn [bind while_]. rewrite Nat.ltb_irrefl. eauto. }
  unfold elevate_all_64. change (degrees a) with pd.
  match goal with |- bind (for_up 0 ?n ?f a) _ = _ => destruct (for_up_inv (fun _ x => x = a) f n 0 a) as (x & E' & ->) end; [reflexivity| |rewrite E'; cbn [bind]].
  { intros i x Hi ->. rewrite (get_ok 0) by lia. unfold elevate_to_64. cbn [bind while_]. change (degrees a) with pd. rewrite Nat.ltb_irrefl. eauto. }
  reflexivity.
Qed.
Lemma c112_derivative_constant : forall (T V : Type) (o : SOps T) (ov : VOps T V) (limit limit_w MAXB fuel : nat) (r : rspline T V) (k : nat),
  rwf r -> (Z.of_nat (n_coeffs (rdegrees r)) < 2 ^ 64)%Z -> k < length (rdegrees r) -> nth k (rdegrees r) 0 = 0 -> 0 < fuel ->
  R_DerivativeWRT_64 limit limit_w MAXB fuel r (upd_list (repeat 0 (length (rdegrees r))) k 1) = UB.
Proof.
  intros T V o ov lv lw MAXB fuel r k (Wu & Ww & D) HF Hk H0 Hf. destruct fuel as [|fuel]; [lia|].
  assert (St : R_derivative_step_64 lv lw MAXB (S fuel) k r = UB).
  { unfold R_derivative_step_64. unfold rdegrees in *. rewrite set_ok by (rewrite repeat_length; auto). cbn [bind].
    destruct (c108_derivative_beyond T V o ov lv MAXB (weighted_spline r) k Wu HF Hk) as (du & E1 & _ & _ & T1 & L1 & N1 & _).
    destruct (c108_derivative_beyond T T o _ lw MAXB (weight_function r) k Ww ltac:(rewrite D; exact HF) ltac:(rewrite D; exact Hk)) as (dw & E2 & _ & _ & T2 & L2 & N2 & _).
    rewrite D in *. rewrite H0 in *. cbn [Nat.add] in E1, E2. rewrite E1. cbn [bind].
    destruct (empty_mul lv MAXB (fun p c => vscale c p) du (weight_function r) k _ ltac:(rewrite D, L1; reflexivity) ltac:(lia) eq_refl T1 ltac:(rewrite D; exact H0)) as (pd & E3 & L3 & N3).
    unfold spline_mul_vs_64. rewrite E3. cbn [bind]. rewrite E2. cbn [bind].
    destruct (empty_mul lv MAXB (fun c p => vscale c p) dw (weighted_spline r) k _ ltac:(lia) ltac:(lia) eq_refl T2 H0) as (pd' & E4 & L4 & N4).
    unfold spline_mul_sv_64. rewrite E4. cbn [bind].
    assert (Q : pd' = pd).
    { apply (list_ext 0); [lia|]. intros j Hj. rewrite N4, N3 by lia. rewrite D. f_equal. f_equal. destruct (Nat.eq_dec j k) as [->|Hne].
      - apply Nat2Z.inj. congruence.
      - rewrite N1, N2 by auto. reflexivity. }
    subst pd'. assert (Nk : nth k pd 0 = nth k (degrees du) 0).
    { rewrite N3 by lia. rewrite D, H0, Nat.add_0_r. apply w64_id. unfold fits64. lia. }
    rewrite (empty_sub lv fuel pd k _ ltac:(lia) Nk T1). cbn [bind].
    unfold OrderElevate_64. cbn [degrees index_offsets number_of_control_points]. rewrite (get_ok 0) by lia. cbn [bind]. rewrite (get_ok 0) by (rewrite map_length, length_offsets; lia). cbn [bind].
    rewrite Nk, (w64_top _ T1). reflexivity. }
  unfold R_DerivativeWRT_64, rdegrees in *. replace (length (degrees (weighted_spline r))) with (k + S (length (degrees (weighted_spline r)) - S k)) at 1 by lia.
  match goal with |- for_up 0 _ ?f r = _ => destruct (for_up_inv (fun _ x => x = r) f k 0 r) as (x & E & ->) end; [reflexivity| |].
  { intros i x Hi ->. rewrite (get_ok 0) by (rewrite length_upd, repeat_length; lia). cbn [bind]. rewrite nth_upd by (rewrite repeat_length; auto).
    destruct (Nat.eqb_spec i k); [lia|]. rewrite nth_repeat. cbn [for_up]. eauto. }
  rewrite for_up_app, E. cbn [bind for_up Nat.add]. rewrite (get_ok 0) by (rewrite length_upd, repeat_length; lia). rewrite nth_upd_same by (rewrite repeat_length; auto). cbn [bind for_up].
  rewrite St. reflexivity.
Qed.
