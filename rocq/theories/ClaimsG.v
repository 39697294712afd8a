(** Claims about rational splines: values, basis functions, arithmetic, refinement, corners. *)
From Coq Require Import Arith Lia List ZArith NArith Bool Ring Field QArith Qcanon.
From Verif Require Import Prelude Scalar Spec SpecSpline Sums Order Coord ModelBasis ModelSpline ModelPoint
  Examples ProofIndex ProofBasis ProofEval ProofElevate ProofUnique ClaimsA ProofArith ClaimsB ProofCube ClaimsC
  ProofMul ProofSplit ClaimsD ProofCompose ClaimsE ModelRational SpecRational ProofRational ProofRational2
  ProofRational3.
Import ListNotations.
Local Open Scope nat_scope.

Section Inv.
Context {T V : Type} {o : SOps T} {ov : VOps T V} {F : SField T} {M : VMod T V}.
Add Field Tfield : (@sf_th T o F).
Lemma inv_l (w : T) : w <> s0 -> smul (sdiv s1 w) w = s1.
Proof. intros. field. auto. Qed.
Lemma inv_r (w : T) : w <> s0 -> smul w (sdiv s1 w) = s1.
Proof. intros. field. auto. Qed.
Lemma div_def (a w : T) : w <> s0 -> sdiv a w = smul (sdiv s1 w) a.
Proof. intros. field. auto. Qed.
Lemma quot_assoc (w a b : T) : w <> s0 -> smul (smul (sdiv s1 w) a) b = sdiv (smul a b) w.
Proof. intros. field. auto. Qed.
Lemma inv_1 : sdiv s1 s1 = (s1 : T).
Proof. field. exact s1_neq0. Qed.
Lemma cancel (w : T) (v : V) : w <> s0 -> vscale (sdiv s1 w) (vscale w v) = v.
Proof. intros. rewrite <- vm_mul, inv_l by auto. apply vm_1. Qed.
Lemma cancel' (w : T) (v : V) : w <> s0 -> vscale w (vscale (sdiv s1 w) v) = v.
Proof. intros. rewrite <- vm_mul, inv_r by auto. apply vm_1. Qed.
End Inv.

(** ** C34 *)
Lemma c34_quotient : forall (T V : Type) (o : SOps T) (ov : VOps T V) (F : SField T) (M : VMod T V)
  (deg : list nat) (pts : list V) (ws : list T),
  deg <> [] -> length pts = n_coeffs deg -> length ws = n_coeffs deg ->
  exists r, R_deg_points deg pts ws = Ok r /\ rwf r /\ rdegrees r = deg /\
    forall xs : list T, length xs = length deg ->
      let W := bezier deg xs (fun i => nth i ws s0) in
      (W <> s0 -> R_Evaluate r xs =
         Ok (vscale (sdiv s1 W) (bezier deg xs (fun i => vscale (nth i ws s0) (nth i pts v0))))) /\
      (W = s0 -> R_Evaluate r xs = NonFinite).
Proof.
  intros T V o ov F M deg pts ws HD HP HW. rewrite R_deg_points_ok by auto.
  pose proof (R_deg_points_wf deg pts ws HD HP HW) as Hr.
  eexists. split; [reflexivity|]. split; [exact Hr|]. split; [reflexivity|]. intros xs HX W. split; intros HN.
  - rewrite R_Evaluate_ok; [|exact Hr|split; [exact HX|exact HN]].
    unfold rvalue. cbn [weighted_spline weight_function]. rewrite !value_mk. do 2 f_equal.
    apply bezier_ext. intros i Hi. rewrite (nth_map2 _ _ _ _ v0 s0) by lia. reflexivity.
  - apply R_Evaluate_0; auto.
Qed.

Lemma c34_control_points : forall (T V : Type) (o : SOps T) (ov : VOps T V) (F : SField T) (M : VMod T V)
  (deg : list nat) (pts : list V) (ws : list T) (idx : list nat),
  deg <> [] -> length pts = n_coeffs deg -> length ws = n_coeffs deg -> valid_index deg idx ->
  exists r, R_deg_points deg pts ws = Ok r /\
    R_Weight r idx = Ok (nth (position deg idx) ws s0) /\
    R_WeightedControlPoint r idx =
      Ok (vscale (nth (position deg idx) ws s0) (nth (position deg idx) pts v0)) /\
    (nth (position deg idx) ws s0 <> s0 -> R_ControlPoint r idx = Ok (nth (position deg idx) pts v0)).
Proof.
  intros T V o ov F M deg pts ws idx HD HP HW Hv. rewrite R_deg_points_ok by auto.
  destruct (R_deg_points_wf deg pts ws HD HP HW) as (Hu & Hw & _).
  pose proof (position_lt deg idx Hv) as Hlt.
  eexists. split; [reflexivity|].
  assert (E1 : ControlPoint (mk deg ws) idx = Ok (nth (position deg idx) ws s0)).
  { rewrite (ControlPoint_ok s0) by auto. reflexivity. }
  assert (E2 : ControlPoint (mk deg (map2 (fun p x => vscale x p) pts ws)) idx =
    Ok (vscale (nth (position deg idx) ws s0) (nth (position deg idx) pts v0))).
  { rewrite (ControlPoint_ok v0) by auto. cbn [mk degrees control_points].
    rewrite (nth_map2 _ _ _ _ v0 s0) by lia. reflexivity. }
  split; [exact E1|]. split; [exact E2|]. intros HN. unfold R_ControlPoint.
  cbn [weighted_spline weight_function]. rewrite E2. cbn [bind]. rewrite E1. cbn [bind].
  rewrite vdiv_ok by auto. f_equal. apply cancel. auto.
Qed.

Lemma c34_conversion : forall (T V : Type) (o : SOps T) (ov : VOps T V) (F : SField T) (M : VMod T V)
  (s : spline V), wf s ->
  exists r, R_of_spline s = Ok r /\ rwf r /\ rdegrees r = degrees s /\
    forall xs : list T, length xs = length (degrees s) -> R_Evaluate r xs = Evaluate s xs.
Proof.
  intros T V o ov F M s Hw. destruct (R_of_spline_ok (T := T) s Hw) as (r & E & Hr & Hd & HV).
  exists r. do 3 (split; [auto|]). intros xs HX. destruct (HV xs HX) as (V1 & V2).
  rewrite R_Evaluate_ok; auto.
  - rewrite Evaluate_value by auto. f_equal. unfold rvalue. rewrite V1, V2.
    rewrite inv_1. apply vm_1.
  - split; [rewrite Hd; auto|]. rewrite V1. exact s1_neq0.
Qed.

(** ** C35 *)
Lemma c35_forward_evaluate_partial : forall (T V : Type) (o : SOps T) (ov : VOps T V) (F : SField T) (M : VMod T V)
  (MAXB : nat) (r : rspline T V) (xs : list T),
  MAXB <= 68 -> rwf r -> rdomain r xs -> Forall (fun p => p < MAXB) (rdegrees r) ->
  exists a w, R_Evaluate r xs = Ok a /\ Evaluate (weight_function r) xs = Ok w /\
    R_ForwardEvaluate MAXB r xs = Ok (vscale w a) /\
    (w = s1 -> R_ForwardEvaluate MAXB r xs = R_Evaluate r xs).
Proof.
  intros T V o ov F M MAXB r xs HB Hr HX HM. exists (rvalue r xs), (value_at (weight_function r) xs).
  rewrite R_Evaluate_ok by auto. rewrite (R_ForwardEvaluate_ok MAXB HB r xs Hr (proj1 HX) HM).
  pose proof Hr as (Hu & Hw & Hd). destruct HX as (HX & HN). unfold rdegrees in HX.
  rewrite Evaluate_value by (auto; congruence). do 2 (split; [auto|]).
  assert (E : value_at (weighted_spline r) xs = vscale (value_at (weight_function r) xs) (rvalue r xs)).
  { unfold rvalue. symmetry. apply cancel'. auto. }
  rewrite E. split; auto. intros H1. rewrite H1, vm_1. reflexivity.
Qed.

Definition ex_fw : rspline Qc Qc :=
  mkR (mkSpline [1] 2 [1] [Q2Qc 1; Q2Qc 1]) (mkSpline [1] 2 [1] [Q2Qc 1; Q2Qc 2]).
Lemma c35_forward_evaluate_refuted : exists (r : rspline Qc Qc) (xs : list Qc) (a b : Qc),
  rwf r /\ rdomain r xs /\ R_ForwardEvaluate 4 r xs = Ok a /\ R_Evaluate r xs = Ok b /\ a <> b.
Proof.
  exists ex_fw, [Q2Qc 1], (Q2Qc 1), (Q2Qc (1 # 2)). split; [case_|]. split.
  { split; [reflexivity|]. vm_compute. discriminate. }
  split; [qc_eq|]. split; [qc_eq|]. intros C. apply (f_equal this) in C. vm_compute in C. discriminate.
Qed.

(** ** C36 *)
Lemma c36_basis_functions : forall (T V : Type) (o : SOps T) (ov : VOps T V) (F : SField T) (M : VMod T V)
  (MAXB : nat) (r : rspline T V) (xs : list T) (pts : list V),
  MAXB <= 68 -> rwf r -> rdomain r xs -> Forall (fun p => p < MAXB) (rdegrees r) ->
  (forall i, i < n_coeffs (rdegrees r) -> nth i (control_points (weighted_spline r)) v0 =
     vscale (nth i (control_points (weight_function r)) s0) (nth i pts v0)) ->
  exists bs : list T, R_BasisFunctions MAXB r xs = Ok bs /\ length bs = n_coeffs (rdegrees r) /\
    ssum (length bs) (fun i => nth i bs s0) = s1 /\
    R_Evaluate r xs = Ok (vsum (length bs) (fun i => vscale (nth i bs s0) (nth i pts v0))).
Proof.
  intros T V o ov F M MAXB r xs pts HB Hr HX HM HP.
  destruct (R_BasisFunctions_ok MAXB HB r xs Hr HX HM) as (bs & E & HL & HN).
  exists bs. do 2 (split; [auto|]). rewrite HL. pose proof (weight_flat r xs Hr (proj1 HX)) as HW.
  destruct HX as (HX & H0). split.
  - rewrite (ssum_ext _ _ (fun i => smul (sdiv s1 (value_at (weight_function r) xs))
      (smul (basis_at (rdegrees r) xs i) (nth i (control_points (weight_function r)) s0)))).
    + rewrite ssum_scale, <- HW. apply inv_l. auto.
    + intros i Hi. rewrite HN by auto. unfold rbasis. apply div_def. auto.
  - rewrite R_Evaluate_ok by (auto; split; auto). f_equal. unfold rvalue. unfold value_at at 2.
    rewrite bezier_flat by exact HX. rewrite <- vsum_scale. apply vsum_ext. intros i Hi.
    rewrite HN, HP by exact Hi. unfold rbasis. rewrite <- !vm_mul. f_equal. apply quot_assoc. auto.
Qed.

Lemma c36_sum : forall (T V : Type) (o : SOps T) (ov : VOps T V) (F : SField T) (M : VMod T V)
  (MAXB : nat) (r : rspline T V) (xs : list T),
  MAXB <= 68 -> rwf r -> rdomain r xs -> Forall (fun p => p < MAXB) (rdegrees r) ->
  exists bs : list T, R_BasisFunctions MAXB r xs = Ok bs /\ length bs = n_coeffs (rdegrees r) /\
    ssum (length bs) (fun i => nth i bs s0) = s1.
Proof.
  intros T V o ov F M MAXB r xs HB Hr HX HM.
  destruct (R_BasisFunctions_ok MAXB HB r xs Hr HX HM) as (bs & E & HL & HN).
  exists bs. do 2 (split; [auto|]). rewrite HL. pose proof (weight_flat r xs Hr (proj1 HX)) as HW.
  destruct HX as (HX & H0).
  rewrite (ssum_ext _ _ (fun i => smul (sdiv s1 (value_at (weight_function r) xs))
    (smul (basis_at (rdegrees r) xs i) (nth i (control_points (weight_function r)) s0)))).
  - rewrite ssum_scale, <- HW. apply inv_l. auto.
  - intros i Hi. rewrite HN by auto. unfold rbasis. apply div_def. auto.
Qed.

Lemma c36_basis_functions_nonneg : forall (T V : Type) (o : SOps T) (ov : VOps T V) (F : SField T) (M : VMod T V)
  (O : SOrder T) (MAXB : nat) (r : rspline T V) (xs : list T),
  MAXB <= 68 -> rwf r -> length xs = length (rdegrees r) -> Forall in_unit xs ->
  Forall (fun w => slt s0 w) (control_points (weight_function r)) ->
  Forall (fun p => p < MAXB) (rdegrees r) ->
  rdomain r xs /\
  exists bs : list T, R_BasisFunctions MAXB r xs = Ok bs /\ length bs = n_coeffs (rdegrees r) /\
    Forall (fun b => sle s0 b) bs.
Proof.
  intros T V o ov F M O MAXB r xs HB Hr HX HU HP HM. pose proof Hr as (Hu & Hw & Hd).
  assert (HW : slt s0 (value_at (weight_function r) xs)).
  { apply weight_pos; auto. rewrite Hd. exact HX. }
  assert (HD : rdomain r xs) by (split; auto; apply not_eq_sym, slt_neq; auto).
  split; auto.
  destruct (R_BasisFunctions_ok MAXB HB r xs Hr) as (bs & E & HL & HN); auto.
  exists bs. do 2 (split; [auto|]). apply Forall_forall. intros b Hb.
  destruct (In_nth _ _ s0 Hb) as (i & Hi & <-). rewrite HN by congruence. unfold rbasis.
  apply sle_div; auto. apply sle_mul_0.
  - apply basis_nonneg; auto.
  - apply slt_sle. rewrite Forall_forall in HP. apply HP. apply nth_In.
    destruct Hw as (_ & _ & _ & ->). rewrite Hd. unfold rdegrees in HL. rewrite <- HL. exact Hi.
Qed.

(** ** C40 *)
Lemma c40_add_sub : forall (T V : Type) (o : SOps T) (ov : VOps T V) (F : SField T) (M : VMod T V)
  (MAXB fuel : nat) (r s : rspline T V),
  MAXB <= 68 -> rwf r -> rwf s -> length (rdegrees s) = length (rdegrees r) ->
  Forall (fun p => p < MAXB) (map2 Nat.add (rdegrees r) (rdegrees s)) ->
  (Z.of_nat (n_coeffs (map2 Nat.add (rdegrees r) (rdegrees s))) < 2 ^ 31)%Z ->
  list_max (map2 Nat.add (rdegrees r) (rdegrees s)) + 1 < fuel ->
  (exists c, R_add MAXB fuel r s = Ok c /\ R_add_assign MAXB fuel r s = Ok c /\ rwf c /\
     forall xs : list T, rdomain r xs -> rdomain s xs ->
       exists a b, R_Evaluate r xs = Ok a /\ R_Evaluate s xs = Ok b /\ R_Evaluate c xs = Ok (vadd a b)) /\
  (exists c, R_sub MAXB fuel r s = Ok c /\ R_sub_assign MAXB fuel r s = Ok c /\ rwf c /\
     forall xs : list T, rdomain r xs -> rdomain s xs ->
       exists a b, R_Evaluate r xs = Ok a /\ R_Evaluate s xs = Ok b /\ R_Evaluate c xs = Ok (vsub a b)).
Proof.
  intros T V o ov F M MAXB fuel r s HB Hr Hs HL HM Hsz Hf.
  destruct (R_add_sub_ok MAXB HB r s Hr Hs HL HM Hsz fuel Hf)
    as ((c & E & E' & (Hc & _ & HV)) & (c2 & E2 & E2' & (Hc2 & _ & HV2))).
  split; [exists c|exists c2]; do 3 (split; [auto|]); intros xs HX HY; exists (rvalue r xs), (rvalue s xs);
    rewrite !R_Evaluate_ok by (auto; apply HV || apply HV2; auto); do 2 (split; [auto|]); f_equal;
    [apply HV|apply HV2]; auto.
Qed.

Lemma mul_value_R {T V1 V2 V3} {o : SOps T} {o1 : VOps T V1} {o2 : VOps T V2} {o3 : VOps T V3}
  {F : SField T} {M1 : VMod T V1} {M2 : VMod T V2} {M3 : VMod T V3}
  (pmul : V1 -> V2 -> V3) {B : Bilinear pmul} MAXB (r : rspline T V1) (s : rspline T V2) :
  MAXB <= 68 -> rwf r -> rwf s -> length (rdegrees s) = length (rdegrees r) ->
  Forall (fun p => p < MAXB) (map2 Nat.add (rdegrees r) (rdegrees s)) ->
  exists c, R_mul MAXB pmul r s = Ok c /\ rwf c /\ rdegrees c = map2 Nat.add (rdegrees r) (rdegrees s) /\
    forall xs : list T, rdomain r xs -> rdomain s xs ->
      exists a b, R_Evaluate r xs = Ok a /\ R_Evaluate s xs = Ok b /\ R_Evaluate c xs = Ok (pmul a b).
Proof.
  intros HB Hr Hs HL HM. destruct (R_mul_ok pmul MAXB r s HB Hr Hs HL HM) as (c & E & Hc & Dc & HV).
  exists c. do 3 (split; [auto|]). intros xs HX HY. exists (rvalue r xs), (rvalue s xs).
  rewrite !R_Evaluate_ok by (auto; apply HV; auto). do 2 (split; [auto|]). f_equal. apply HV; auto.
Qed.

Lemma c40_product_scalar_scalar : forall (T : Type) (o : SOps T) (F : SField T) (MAXB : nat) (r s : rspline T T),
  MAXB <= 68 -> rwf r -> rwf s -> length (rdegrees s) = length (rdegrees r) ->
  Forall (fun p => p < MAXB) (map2 Nat.add (rdegrees r) (rdegrees s)) ->
  exists c : rspline T T, R_mul MAXB (fun a b => smul a b) r s = Ok c /\ rwf c /\
    rdegrees c = map2 Nat.add (rdegrees r) (rdegrees s) /\
    forall xs : list T, rdomain r xs -> rdomain s xs ->
      exists a b, R_Evaluate r xs = Ok a /\ R_Evaluate s xs = Ok b /\ R_Evaluate c xs = Ok (smul a b).
Proof. intros. apply (mul_value_R (fun a b : T => smul a b)); auto. Qed.

Lemma c40_product_point_scalar : forall (T V : Type) (o : SOps T) (ov : VOps T V) (F : SField T) (M : VMod T V)
  (MAXB : nat) (r : rspline T V) (s : rspline T T),
  MAXB <= 68 -> rwf r -> rwf s -> length (rdegrees s) = length (rdegrees r) ->
  Forall (fun p => p < MAXB) (map2 Nat.add (rdegrees r) (rdegrees s)) ->
  exists c : rspline T V, R_mul MAXB (fun p k => vscale k p) r s = Ok c /\ rwf c /\
    rdegrees c = map2 Nat.add (rdegrees r) (rdegrees s) /\
    forall xs : list T, rdomain r xs -> rdomain s xs ->
      exists p k, R_Evaluate r xs = Ok p /\ R_Evaluate s xs = Ok k /\ R_Evaluate c xs = Ok (vscale k p).
Proof. intros. apply (mul_value_R (fun (p : V) (k : T) => vscale k p)); auto. Qed.

Lemma c40_product_scalar_point : forall (T V : Type) (o : SOps T) (ov : VOps T V) (F : SField T) (M : VMod T V)
  (MAXB : nat) (r : rspline T T) (s : rspline T V),
  MAXB <= 68 -> rwf r -> rwf s -> length (rdegrees s) = length (rdegrees r) ->
  Forall (fun p => p < MAXB) (map2 Nat.add (rdegrees r) (rdegrees s)) ->
  exists c : rspline T V, R_mul MAXB (fun k p => vscale k p) r s = Ok c /\ rwf c /\
    rdegrees c = map2 Nat.add (rdegrees r) (rdegrees s) /\
    forall xs : list T, rdomain r xs -> rdomain s xs ->
      exists k p, R_Evaluate r xs = Ok k /\ R_Evaluate s xs = Ok p /\ R_Evaluate c xs = Ok (vscale k p).
Proof. intros. apply (mul_value_R (fun (k : T) (p : V) => vscale k p)); auto. Qed.

Lemma c40_product_dot : forall (T : Type) (o : SOps T) (F : SField T) (MAXB d : nat) (r s : rspline T (point T d)),
  MAXB <= 68 -> rwf r -> rwf s -> length (rdegrees s) = length (rdegrees r) ->
  Forall (fun p => p < MAXB) (map2 Nat.add (rdegrees r) (rdegrees s)) ->
  exists c : rspline T T,
    R_mul MAXB (fun p q => ssum d (fun k => smul (coord d p k) (coord d q k))) r s = Ok c /\ rwf c /\
    rdegrees c = map2 Nat.add (rdegrees r) (rdegrees s) /\
    forall xs : list T, rdomain r xs -> rdomain s xs ->
      exists p q k, R_Evaluate r xs = Ok p /\ R_Evaluate s xs = Ok q /\ point_dot p q = Ok k /\ R_Evaluate c xs = Ok k.
Proof.
  intros T o F MAXB d r s HB Hr Hs HL HF.
  destruct (mul_value_R (dot d) MAXB r s HB Hr Hs HL HF) as (c & E & Hc & Dc & HV).
  exists c. split; [exact E|]. do 2 (split; [auto|]). intros xs HX HY.
  destruct (HV xs HX HY) as (p & q & E1 & E2 & E3). exists p, q, (dot d p q). do 2 (split; [auto|]).
  split; [apply dot_loop|exact E3].
Qed.

(** ** C41 *)
Lemma c41_pointwise : forall (T V : Type) (o : SOps T) (ov : VOps T V) (F : SField T) (M : VMod T V)
  (r : rspline T V) (c : T) (p : V), rwf r ->
  racts_pointwise r (R_scale_assign r c) (fun a => vscale c a) /\
  racts_pointwise r (R_scale r c) (fun a => vscale c a) /\
  racts_pointwise r (R_shift_assign r p) (fun a => vadd a p) /\
  racts_pointwise r (R_shift r p) (fun a => vadd a p) /\
  racts_pointwise r (R_unshift_assign r p) (fun a => vsub a p) /\
  racts_pointwise r (R_unshift r p) (fun a => vsub a p) /\
  racts_pointwise r (R_neg r) (fun a => vopp a).
Proof.
  intros T V o ov F M r c p Hr. destruct (R_scale_ok r c Hr) as (A & B).
  destruct (R_shift_ok r p Hr) as (C & D & E & G). pose proof (R_neg_ok r Hr). tauto.
Qed.

(** ** C42 *)
Lemma rvalue_eval {T V : Type} {o : SOps T} {ov : VOps T V} {F : SField T} {M : VMod T V}
  (r r' : rspline T V) (xs ys : list T) : rwf r -> rwf r' ->
  length xs = length (rdegrees r) -> length ys = length (rdegrees r') ->
  value_at (weighted_spline r) xs = value_at (weighted_spline r') ys ->
  value_at (weight_function r) xs = value_at (weight_function r') ys ->
  R_Evaluate r xs = R_Evaluate r' ys.
Proof.
  intros (Hu & Hw & Hd) (Hu' & Hw' & Hd') HX HY E1 E2. unfold R_Evaluate. unfold rdegrees in *.
  rewrite !Evaluate_value by (auto; congruence). cbn [bind]. rewrite E1, E2. reflexivity.
Qed.

Lemma c42_order_elevate : forall (T V : Type) (o : SOps T) (ov : VOps T V) (F : SField T) (M : VMod T V)
  (r : rspline T V) (k : nat), rwf r -> k < length (rdegrees r) ->
  (Z.of_nat (n_coeffs (upd_at k S (rdegrees r))) < 2 ^ 31)%Z ->
  exists r', R_OrderElevate r k = Ok r' /\ rwf r' /\ rdegrees r' = upd_at k S (rdegrees r) /\
    forall xs : list T, length xs = length (rdegrees r) -> R_Evaluate r' xs = R_Evaluate r xs.
Proof.
  intros T V o ov F M r k Hr Hk Hs. rewrite (upd_at_upd 0) in * by auto.
  destruct (R_OrderElevate_ok r k Hr Hk Hs) as (r' & E & Hr' & Dr & HV).
  exists r'. do 3 (split; [auto|]). intros xs HX. destruct (HV xs HX). apply rvalue_eval; auto.
  rewrite Dr, length_upd. auto.
Qed.

Section RPlanes.
Context {T V : Type} {o : SOps T} {ov : VOps T V} {F : SField T} {M : VMod T V} {O : SOrder T}.

Lemma rpiece_eval (r b : rspline T V) k l m : rwf r -> rpiece r b k l m ->
  forall xs : list T, length xs = length (rdegrees r) ->
    R_Evaluate b xs = R_Evaluate r (upd_list xs k (sadd l (smul (ssub m l) (nth k xs s0)))).
Proof.
  intros Hr HP xs HX. destruct (rpiece_wf r b k l m Hr HP) as (Hb & Db). destruct Hr as (Hu & Hw & Hd).
  destruct HP as (HPu & HPw). unfold rdegrees in *. unfold R_Evaluate.
  rewrite (piece_eval _ _ k l m Hu HPu) by auto. rewrite (piece_eval _ _ k l m Hw HPw) by congruence. reflexivity.
Qed.

Lemma rsplit_loop_throw (r : rspline T V) planes k : rwf r -> k < length (rdegrees r) ->
  forall n lo out a b, 1 <= lo -> lo + n = length planes ->
  rpiece r b k (nth (lo - 1) planes s0) s1 -> slt (nth (lo - 1) planes s0) s1 ->
  (exists i, lo <= i < lo + n /\ ~ (slt (nth (i - 1) planes s0) (nth i planes s0) /\ slt (nth i planes s0) s1)) ->
  for_up lo n (rsplit_step planes k) (out, [a; b]) = Throw.
Proof.
  intros Hr Hk. induction n; intros lo out a b H1 Hlen Hb HL (i & Hi & Hbad); [lia|].
  cbn [for_up]. unfold rsplit_step at 1. rewrite !(get_ok s0) by lia. cbn [bind].
  destruct (rel_pos (nth (lo - 1) planes s0) (nth lo planes s0) HL) as (HN & R0 & R1).
  rewrite divS_ok by auto. cbn [bind get nth_error].
  destruct (sltb (nth (lo - 1) planes s0) (nth lo planes s0)) eqn:E1.
  2:{ rewrite R_Split_throw; auto. intros (A & _). apply R0 in A. unfold slt in A. congruence. }
  destruct (sltb (nth lo planes s0) s1) eqn:E2.
  2:{ rewrite R_Split_throw; auto. intros (_ & A). apply R1 in A. unfold slt in A. congruence. }
  destruct (rpiece_split r b k _ _ Hr Hk Hb E1 E2) as (b1 & b2 & E & P1 & P2).
  rewrite E. cbn [bind get nth_error].
  apply IHn; try lia.
  - replace (S lo - 1) with lo by lia. auto.
  - replace (S lo - 1) with lo by lia. auto.
  - exists i. split; auto. destruct (Nat.eq_dec i lo) as [->|]; [|lia]. exfalso. apply Hbad. auto.
Qed.

Lemma R_Positions_step (r : rspline T V) planes k : is_sorted planes = true -> planes <> [] ->
  R_SplitAtPositions r planes k =
  (do split <- R_SplitAtPosition r (nth 0 planes s0) k;
   do x <- get split 0;
   do '(out, split) <- for_up 1 (length planes - 1) (rsplit_step planes k) ([x], split);
   do x <- get split 1;
   Ok (out ++ [x])).
Proof.
  intros HS HN. unfold R_SplitAtPositions. rewrite HS. cbn [negb].
  destruct (Nat.eqb_spec (length planes) 0) as [E|E]; [destruct planes; [congruence|discriminate]|].
  rewrite (get_ok s0) by lia. cbn [bind]. reflexivity.
Qed.

Lemma R_Positions_throw (r : rspline T V) planes k : rwf r -> k < length (rdegrees r) -> planes <> [] ->
  let bounds := s0 :: planes ++ [s1] in
  ~ (forall i, S i < length bounds -> slt (nth i bounds s0) (nth (S i) bounds s0)) ->
  R_SplitAtPositions r planes k = Throw.
Proof.
  intros Hw Hk HN bounds HB.
  destruct (is_sorted planes) eqn:ES; [|unfold R_SplitAtPositions; rewrite ES; reflexivity].
  rewrite R_Positions_step by auto.
  assert (Hpos : 0 < length planes) by (destruct planes; [congruence|simpl; lia]).
  destruct (sltb s0 (nth 0 planes s0)) eqn:E0.
  2:{ rewrite R_Split_throw; auto. intros (A & _). unfold slt in A. congruence. }
  destruct (sltb (nth 0 planes s0) s1) eqn:E1.
  2:{ rewrite R_Split_throw; auto. intros (_ & A). unfold slt in A. congruence. }
  destruct (rpiece_first r k (nth 0 planes s0)) as (a & b & E & PA & PB); auto.
  rewrite E. cbn [bind get nth_error].
  rewrite (rsplit_loop_throw r planes k Hw Hk (length planes - 1) 1 [a] a b); auto; try lia.
  assert (HD : forall n, n <= length planes - 1 ->
    (forall i, 1 <= i < 1 + n -> slt (nth (i - 1) planes s0) (nth i planes s0) /\ slt (nth i planes s0) s1) \/
    (exists i, 1 <= i < 1 + n /\ ~ (slt (nth (i - 1) planes s0) (nth i planes s0) /\ slt (nth i planes s0) s1))).
  { induction n; intros Hn; [left; intros; lia|]. destruct IHn as [A|(i & Hi & A)]; [lia| |right; exists i; split; [lia|auto]].
    destruct (sltb (nth (S n - 1) planes s0) (nth (S n) planes s0)) eqn:EA.
    2:{ right. exists (S n). split; [lia|]. unfold slt. intros (X & _). congruence. }
    destruct (sltb (nth (S n) planes s0) s1) eqn:EB.
    2:{ right. exists (S n). split; [lia|]. unfold slt. intros (_ & X). congruence. }
    left. intros i Hi. destruct (Nat.eq_dec i (S n)) as [->|]; [split; assumption|apply A; lia]. }
  destruct (HD (length planes - 1)) as [A|A]; auto.
  exfalso. apply HB. intros i Hi. unfold bounds in *. simpl in Hi. rewrite app_length in Hi. simpl in Hi.
  destruct i as [|i].
  - cbn [nth]. rewrite app_nth1 by lia. exact E0.
  - cbn [nth]. rewrite (app_nth1 _ _ s0 (n := i)) by lia.
    destruct (Nat.eq_dec (S i) (length planes)) as [Heq|].
    + rewrite app_nth2 by lia. replace (S i - length planes) with 0 by lia. cbn [nth].
      destruct i; [exact E1|]. apply A. lia.
    + rewrite app_nth1 by lia. replace i with (S i - 1) at 1 by lia. apply A. lia.
Qed.
End RPlanes.

Lemma c42_split : forall (T V : Type) (o : SOps T) (ov : VOps T V) (F : SField T) (M : VMod T V) (O : SOrder T)
  (r : rspline T V) (x : T) (k : nat), rwf r -> k < length (rdegrees r) -> slt s0 x -> slt x s1 ->
  exists a b, R_SplitAtPosition r x k = Ok [a; b] /\ rwf a /\ rwf b /\
    rdegrees a = rdegrees r /\ rdegrees b = rdegrees r /\
    forall xs : list T, length xs = length (rdegrees r) ->
      R_Evaluate a xs = R_Evaluate r (upd_list xs k (smul x (nth k xs s0))) /\
      R_Evaluate b xs = R_Evaluate r (upd_list xs k (sadd x (smul (ssub s1 x) (nth k xs s0)))).
Proof.
  intros T V o ov F M O r x k Hr Hk H0 H1.
  destruct (rpiece_first r k x Hr Hk H0 H1) as (a & b & E & PA & PB).
  destruct (rpiece_wf r a k s0 x Hr PA) as (Ha & Da). destruct (rpiece_wf r b k x s1 Hr PB) as (Hb & Db).
  exists a, b. do 5 (split; [auto|]). intros xs HX. split; [|apply rpiece_eval; auto].
  rewrite (rpiece_eval r a k s0 x Hr PA xs HX). do 2 f_equal.
  generalize (@sf_th T o F). intros th. destruct th as [R N D I].
  rewrite (Radd_0_l R), (Rsub_def R). replace (sopp s0) with (s0 : T).
  - rewrite (Radd_comm R), (Radd_0_l R). reflexivity.
  - rewrite <- (Ropp_def R s0) at 1. apply (Radd_0_l R).
Qed.

Lemma c42_split_range : forall (T V : Type) (o : SOps T) (ov : VOps T V) (r : rspline T V) (x : T) (k : nat),
  ~ (slt s0 x /\ slt x s1) -> R_SplitAtPosition r x k = Throw.
Proof. intros. apply R_Split_throw; auto. Qed.

Lemma c42_multi_split : forall (T V : Type) (o : SOps T) (ov : VOps T V) (F : SField T) (M : VMod T V)
  (O : SOrder T) (r : rspline T V) (planes : list T) (k : nat),
  rwf r -> k < length (rdegrees r) ->
  let bounds := s0 :: planes ++ [s1] in
  (forall i, S i < length bounds -> slt (nth i bounds s0) (nth (S i) bounds s0)) ->
  exists parts, R_SplitAtPositions r planes k = Ok parts /\ length parts = S (length planes) /\
    forall i, i <= length planes -> exists b, nth_error parts i = Some b /\ rwf b /\ rdegrees b = rdegrees r /\
      forall xs : list T, length xs = length (rdegrees r) ->
        R_Evaluate b xs = R_Evaluate r (upd_list xs k
          (sadd (nth i bounds s0) (smul (ssub (nth (S i) bounds s0) (nth i bounds s0)) (nth k xs s0)))).
Proof.
  intros T V o ov F M O r planes k Hr Hk bounds HB.
  destruct (R_Positions_ok r planes k Hr Hk HB) as (parts & E & L & HP).
  exists parts. do 2 (split; [auto|]). intros i Hi. specialize (HP i Hi).
  exists (nth i parts r). split; [apply nth_error_nth'; lia|].
  destruct (rpiece_wf _ _ _ _ _ Hr HP). split; [auto|]. split; [auto|]. exact (rpiece_eval r _ k _ _ Hr HP).
Qed.

Lemma c42_multi_split_bad : forall (T V : Type) (o : SOps T) (ov : VOps T V) (F : SField T) (M : VMod T V)
  (O : SOrder T) (r : rspline T V) (planes : list T) (k : nat),
  rwf r -> k < length (rdegrees r) -> planes <> [] ->
  let bounds := s0 :: planes ++ [s1] in
  ~ (forall i, S i < length bounds -> slt (nth i bounds s0) (nth (S i) bounds s0)) ->
  R_SplitAtPositions r planes k = Throw.
Proof. intros. apply R_Positions_throw; auto. Qed.

(** ** C43 *)
Lemma c43_variadic_partial : forall (T V : Type) (o : SOps T) (ov : VOps T V) (r : rspline T V) (i : nat),
  R_ControlPoint_variadic r [i] = R_ControlPoint r [i].
Proof. reflexivity. Qed.

Definition ex_var : rspline Qc Qc :=
  mkR (mkSpline [1; 1] 4 [1; 2] [Q2Qc 1; Q2Qc 2; Q2Qc 3; Q2Qc 4])
      (mkSpline [1; 1] 4 [1; 2] [Q2Qc 1; Q2Qc 1; Q2Qc 1; Q2Qc 1]).
Lemma c43_variadic_refuted : exists (r : rspline Qc Qc) (idx : list nat) (a b : Qc),
  rwf r /\ valid_index (rdegrees r) idx /\
  R_ControlPoint_variadic r idx = Ok a /\ R_ControlPoint r idx = Ok b /\ a <> b.
Proof.
  exists ex_var, [0; 1], (Q2Qc 2), (Q2Qc 3). split; [case_|]. split; [case_|].
  split; [qc_eq|]. split; [qc_eq|]. intros C. apply (f_equal this) in C. vm_compute in C. discriminate.
Qed.

(** ** C44 *)
Lemma positive_nz {T} {o : SOps T} {F : SField T} {O : SOrder T} {d} (r : rspline T (point T d)) : rwf r ->
  Forall (fun w => slt s0 w) (control_points (weight_function r)) -> weights_nz r.
Proof.
  intros (Hu & Hw & Hd) HP i Hi. apply not_eq_sym, slt_neq. rewrite Forall_forall in HP. apply HP.
  apply nth_In. destruct Hw as (_ & _ & _ & ->). rewrite Hd. exact Hi.
Qed.

Lemma forall_nz {T} {o : SOps T} {d} (r : rspline T (point T d)) : rwf r ->
  Forall (fun w => w <> s0) (control_points (weight_function r)) -> weights_nz r.
Proof.
  intros (Hu & Hw & Hd) HP i Hi. rewrite Forall_forall in HP. apply HP.
  apply nth_In. destruct Hw as (_ & _ & _ & ->). rewrite Hd. exact Hi.
Qed.

Lemma c44_bounds : forall (T : Type) (o : SOps T) (F : SField T) (O : SOrder T) (d : nat)
  (r : rspline T (point T d)) (xs : list T),
  rwf r -> length xs = length (rdegrees r) -> Forall in_unit xs ->
  Forall (fun w => slt s0 w) (control_points (weight_function r)) ->
  exists p lo hi, R_Evaluate r xs = Ok p /\ R_MinimumCorner r = Ok lo /\ R_MaximumCorner r = Ok hi /\
    forall k, k < d -> sle (coord d lo k) (coord d p k) /\ sle (coord d p k) (coord d hi k).
Proof.
  intros T o F O d r xs Hr HX HU HP. pose proof (positive_nz r Hr HP) as Hz.
  destruct (r_corner_min r Hr Hz) as (lo & El & Hlo). destruct (r_corner_max r Hr Hz) as (hi & Eh & Hhi).
  exists (rvalue r xs), lo, hi. split; [|do 2 (split; [auto|])].
  - apply R_Evaluate_ok; auto. split; auto. apply not_eq_sym, slt_neq. apply weight_pos; auto; try apply Hr.
    destruct Hr as (_ & _ & ->). auto.
  - intros k Hk. apply R_bounds; auto. intros i Hi. split; [apply Hlo|apply Hhi]; auto.
Qed.

Lemma c44_corners : forall (T : Type) (o : SOps T) (F : SField T) (O : SOrder T) (d : nat)
  (r : rspline T (point T d)), rwf r ->
  Forall (fun w => w <> s0) (control_points (weight_function r)) ->
  exists lo hi, R_MinimumCorner r = Ok lo /\ R_MaximumCorner r = Ok hi /\
    forall k, k < d ->
      (forall idx, valid_index (rdegrees r) idx -> exists p, R_ControlPoint r idx = Ok p /\
         sle (coord d lo k) (coord d p k) /\ sle (coord d p k) (coord d hi k)) /\
      (exists idx p, valid_index (rdegrees r) idx /\ R_ControlPoint r idx = Ok p /\ coord d p k = coord d lo k) /\
      (exists idx p, valid_index (rdegrees r) idx /\ R_ControlPoint r idx = Ok p /\ coord d p k = coord d hi k).
Proof.
  intros T o F O d r Hr HP. pose proof (forall_nz r Hr HP) as Hz.
  destruct (r_corner_min r Hr Hz) as (lo & El & Hlo). destruct (r_corner_max r Hr Hz) as (hi & Eh & Hhi).
  exists lo, hi. do 2 (split; [auto|]). intros k Hk.
  destruct (Hlo k Hk) as (L1 & (i & Hi & Ei)). destruct (Hhi k Hk) as (H1 & (j & Hj & Ej)). split; [|split].
  - intros idx Hv. exists (rcp r (position (rdegrees r) idx)). pose proof (position_lt _ _ Hv).
    split; [apply R_ControlPoint_nz; auto|]. split; [apply L1|apply H1]; auto.
  - exists (index_of (rdegrees r) i), (rcp r i). split; [apply index_of_valid|]. split; auto.
    rewrite R_ControlPoint_nz by (auto; apply index_of_valid). rewrite position_index_of by auto. reflexivity.
  - exists (index_of (rdegrees r) j), (rcp r j). split; [apply index_of_valid|]. split; auto.
    rewrite R_ControlPoint_nz by (auto; apply index_of_valid). rewrite position_index_of by auto. reflexivity.
Qed.

Lemma c44_fits_exact : forall (T : Type) (o : SOps T) (F : SField T) (O : SOrder T) (d : nat)
  (r : rspline T (point T d)), rwf r ->
  Forall (fun w => w <> s0) (control_points (weight_function r)) ->
  exists b, R_FitsIntoUnitCube r = Ok b /\ (b = true <-> in_unit_cube r).
Proof.
  intros T o F O d r Hr HP. pose proof (forall_nz r Hr HP) as Hz.
  destruct (R_Fits_ok r Hr Hz) as (b & E & H). exists b. split; auto.
  rewrite H, (in_unit_cube_iff r Hr). tauto.
Qed.

Lemma c44_empty : forall (T : Type) (o : SOps T) (d : nat) (r : rspline T (point T d)),
  number_of_control_points (weighted_spline r) = 0 ->
  R_MinimumCorner r = Throw /\ R_MaximumCorner r = Throw /\ R_FitsIntoUnitCube r = Throw.
Proof.
  intros T o d r H. unfold R_FitsIntoUnitCube, R_MinimumCorner, R_MaximumCorner, R_Corner. rewrite H. auto.
Qed.
