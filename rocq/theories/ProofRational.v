(** Correctness of the rational spline model: evaluation, arithmetic, refinement. *)
From Coq Require Import Arith Lia List ZArith NArith Bool Ring Field QArith Qcanon.
From Verif Require Import Prelude Scalar Spec SpecSpline Sums Order Coord ModelBasis ModelSpline ModelPoint
  Examples ProofIndex ProofBasis ProofEval ProofElevate ProofUnique ClaimsA ProofArith ClaimsB ProofCube ClaimsC
  ProofMul ProofSplit ClaimsD ProofCompose ModelRational SpecRational.
Import ListNotations.
Local Open Scope nat_scope.

(** A loop rewriting every entry once. *)
Lemma map_loop {A} (d : A) (l : list A) (g : nat -> A -> A) (body : nat -> list A -> res (list A)) :
  (forall i c, i < length l -> length c = length l -> body i c = set c i (g i (nth i c d))) ->
  exists l', for_up 0 (length l) body l = Ok l' /\ length l' = length l /\
    forall i, i < length l -> nth i l' d = g i (nth i l d).
Proof.
  intros H. edestruct (for_up_inv (fun k c => length c = length l /\
    forall j, j < length l -> nth j c d = if j <? k then g j (nth j l d) else nth j l d)) as (c & E & HL & HN).
  3:{ exists c. split; [exact E|]. split; auto. intros i Hi. rewrite HN by auto.
      rewrite (proj2 (Nat.ltb_lt _ _)) by lia. auto. }
  - split; auto.
  - cbv beta. intros k c Hk (HL & HN). rewrite H by (auto; lia). rewrite set_ok by lia.
    eexists. split; [reflexivity|]. rewrite length_upd. split; auto. intros j Hj. rewrite nth_upd by lia.
    destruct (Nat.eqb_spec j k) as [->|].
    + rewrite HN by lia. rewrite (proj2 (Nat.ltb_ge k k)), (proj2 (Nat.ltb_lt k (S k))) by lia. auto.
    + rewrite HN by lia. destruct (Nat.ltb_spec j k), (Nat.ltb_spec j (S k)); auto; lia.
Qed.

Section R.
Context {T V : Type} {o : SOps T} {ov : VOps T V} {F : SField T} {M : VMod T V}.
Add Field Tfield : (@sf_th T o F).
Add Ring Ering : (@ext_ring T V o ov F M).
Ltac vring := to_ext; ring.

Lemma vdiv_ok (v : V) (w : T) : w <> s0 -> vdiv v w = Ok (vscale (sdiv s1 w) v).
Proof. intros. unfold vdiv. rewrite divS_ok by auto. reflexivity. Qed.

Lemma vdiv_0 (v : V) : vdiv v (s0 : T) = NonFinite.
Proof. unfold vdiv, divS. rewrite (proj2 (sf_eqb _ _) eq_refl). reflexivity. Qed.

Lemma R_mk_ok (u : spline V) (w : spline T) : degrees w = degrees u -> R_mk u w = Ok (mkR u w).
Proof.
  intros H. unfold R_mk, compatible. cbn [weighted_spline weight_function]. rewrite H, list_eqb_refl. reflexivity.
Qed.

Lemma list_eqb_eq l m : list_eqb Nat.eqb l m = true -> l = m.
Proof.
  revert m; induction l; intros [|b m]; simpl; try discriminate; auto.
  rewrite andb_true_iff, Nat.eqb_eq. intros (-> & H). f_equal; auto.
Qed.

Lemma R_mk_bad (u : spline V) (w : spline T) : degrees w <> degrees u -> R_mk u w = AssertFail.
Proof.
  intros H. unfold R_mk, compatible. cbn [weighted_spline weight_function].
  destruct (list_eqb _ _ _) eqn:E; auto. apply list_eqb_eq in E. congruence.
Qed.

Lemma compatible_ok (r : rspline T V) : rwf r -> compatible r = true.
Proof. intros (_ & _ & H). unfold compatible. rewrite H. apply list_eqb_refl. Qed.

Lemma R_Evaluate_ok (r : rspline T V) xs : rwf r -> rdomain r xs -> R_Evaluate r xs = Ok (rvalue r xs).
Proof.
  intros (Hu & Hw & Hd) (HX & HN). unfold R_Evaluate, rdegrees in *.
  rewrite !Evaluate_value by (auto; congruence). cbn [bind]. apply vdiv_ok. auto.
Qed.

Lemma R_Evaluate_0 (r : rspline T V) xs : rwf r -> length xs = length (rdegrees r) ->
  value_at (weight_function r) xs = s0 -> R_Evaluate r xs = NonFinite.
Proof.
  intros (Hu & Hw & Hd) HX HN. unfold R_Evaluate, rdegrees in *.
  rewrite !Evaluate_value by (auto; congruence). cbn [bind]. rewrite HN. apply vdiv_0.
Qed.

(** ** Constructors *)
Lemma R_deg_points_ok deg (pts : list V) (ws : list T) :
  deg <> [] -> length pts = n_coeffs deg -> length ws = n_coeffs deg ->
  R_deg_points deg pts ws =
  Ok (mkR (mk deg (map2 (fun p x => vscale x p) pts ws)) (mk deg ws)).
Proof.
  intros HD HP HW. unfold R_deg_points. rewrite Spline_deg_ok by auto. cbn [bind].
  rewrite Spline_deg_points_ok by auto. cbn [bind]. rewrite HP, HW, Nat.eqb_refl. cbn [assert_ bind].
  cbn [mk number_of_control_points control_points]. rewrite Nat.eqb_refl. cbn [assert_ bind].
  rewrite repeat_length.
  edestruct (for_up_inv (fun k c => length c = n_coeffs deg /\
    forall j, j < k -> nth j c v0 = vscale (nth j ws s0) (nth j pts v0))) as (c & E & HL & HN).
  3:{ rewrite E. cbn [bind]. rewrite R_mk_ok by reflexivity. do 2 f_equal. unfold mk, with_cps.
      cbn [degrees number_of_control_points index_offsets]. f_equal.
      apply (list_ext v0); [rewrite length_map2; congruence|]. intros i Hi.
      rewrite HN by lia. rewrite (nth_map2 _ _ _ _ v0 s0) by lia. reflexivity. }
  - split; [apply repeat_length|]. intros; lia.
  - cbv beta. intros k c Hk (HL & HN). rewrite (get_ok v0) by lia. cbn [bind].
    rewrite (get_ok s0) by lia. cbn [bind]. rewrite set_ok by lia. eexists. split; [reflexivity|].
    rewrite length_upd. split; auto. intros j Hj. rewrite nth_upd by lia.
    destruct (Nat.eqb_spec j k) as [->|]; auto. apply HN. lia.
Qed.

Lemma R_deg_points_wf deg (pts : list V) (ws : list T) :
  deg <> [] -> length pts = n_coeffs deg -> length ws = n_coeffs deg ->
  rwf (mkR (mk deg (map2 (fun p x => vscale x p) pts ws)) (mk deg ws)).
Proof.
  intros. split; [|split; auto].
  - apply wf_mk; auto. rewrite length_map2; congruence.
  - apply wf_mk; auto.
Qed.

Lemma value_mk {W} {ow : VOps T W} deg (c : list W) (xs : list T) :
  value_at (mk deg c) xs = bezier deg xs (fun i => nth i c v0).
Proof. reflexivity. Qed.

Lemma bezier_const' degs (xs : list T) : length xs = length degs -> bezier degs xs (fun _ => s1) = (s1 : T).
Proof. intros. apply (bezier_const (V := T)). auto. Qed.

Lemma R_of_spline_ok (s : spline V) : wf s ->
  exists r, R_of_spline s = Ok r /\ rwf r /\ rdegrees r = degrees s /\
    forall xs : list T, length xs = length (degrees s) ->
      value_at (weight_function r) xs = s1 /\ value_at (weighted_spline r) xs = value_at s xs.
Proof.
  intros Hw. unfold R_of_spline. pose proof Hw as (Hd & Hn & Ho & Hc).
  rewrite Spline_deg_points_ok by (auto; rewrite repeat_length; auto). cbn [bind].
  rewrite R_mk_ok by reflexivity. eexists. split; [reflexivity|]. split; [|split; [reflexivity|]].
  - split; [auto|]. split; [|reflexivity]. apply wf_mk; auto. rewrite repeat_length. auto.
  - intros xs HX. split; [|reflexivity]. cbn [weight_function]. rewrite value_mk.
    rewrite (bezier_ext _ _ _ (fun _ => s1)); [apply bezier_const'; auto|].
    intros i Hi. apply nth_repeat_lt. congruence.
Qed.

(** ** Basis functions *)
Section Basis.
Context (MAXB : nat) (HB : MAXB <= 68).

Definition rbasis (r : rspline T V) (xs : list T) (i : nat) : T :=
  sdiv (smul (basis_at (rdegrees r) xs i) (nth i (control_points (weight_function r)) s0))
    (value_at (weight_function r) xs).

Lemma weight_flat (r : rspline T V) xs : rwf r -> length xs = length (rdegrees r) ->
  value_at (weight_function r) xs = ssum (n_coeffs (rdegrees r)) (fun i =>
    smul (basis_at (rdegrees r) xs i) (nth i (control_points (weight_function r)) s0)).
Proof.
  intros (Hu & Hw & Hd) HX. unfold value_at, rdegrees in *. rewrite Hd.
  rewrite (bezier_flat (V := T)) by auto. rewrite ssum_vsum. reflexivity.
Qed.

Lemma R_Unweighted_ok (r : rspline T V) xs : rwf r -> rdomain r xs ->
  Forall (fun p => p < MAXB) (rdegrees r) ->
  exists fs, R_UnweightedBasisFunctions MAXB r xs = Ok fs /\ length fs = n_coeffs (rdegrees r) /\
    forall i, i < n_coeffs (rdegrees r) ->
      nth i fs s0 = sdiv (basis_at (rdegrees r) xs i) (value_at (weight_function r) xs).
Proof.
  intros Hr (HX & HN) HM. pose proof (weight_flat r xs Hr HX) as HW. pose proof (compatible_ok r Hr) as HC.
  destruct Hr as (Hu & Hw & Hd). unfold R_UnweightedBasisFunctions. rewrite HC. cbn [assert_ bind].
  unfold rdegrees in *. rewrite (BasisFunctions_ok MAXB HB) by (auto; rewrite Hd; auto). cbn [bind].
  rewrite Hd in *. rewrite map_length, seq_length. set (n := n_coeffs (degrees (weighted_spline r))) in *.
  assert (HLw : length (control_points (weight_function r)) = n) by (destruct Hw as (_ & _ & _ & ->); now rewrite Hd).
  edestruct (for_up_inv (fun k acc => acc = ssum k (fun i =>
    smul (basis_at (degrees (weighted_spline r)) xs i) (nth i (control_points (weight_function r)) s0)))) as (a & E & Ea).
  3:{ rewrite E. cbn [bind]. cbn [Nat.add] in Ea. rewrite <- HW in Ea. subst a. rewrite divS_ok by auto. cbn [bind].
      edestruct (map_loop s0 (map (basis_at (degrees (weighted_spline r)) xs) (seq 0 n))
        (fun _ f => smul f (sdiv s1 (value_at (weight_function r) xs)))) as (l & El & HL & Hl).
      2:{ rewrite map_length, seq_length in *. exists l. split; [exact El|]. split; [auto|].
          intros i Hi. rewrite Hl by auto. rewrite nth_map_seq by auto. field. auto. }
      cbv beta. intros i c Hi Hc. rewrite map_length, seq_length in *. rewrite (get_ok s0) by lia. reflexivity. }
  - reflexivity.
  - cbv beta. intros k acc Hk ->. rewrite (get_ok s0) by (rewrite map_length, seq_length; lia). cbn [bind].
    rewrite nth_map_seq by lia. rewrite (get_ok s0) by lia. cbn [bind]. eexists. split; reflexivity.
Qed.

Lemma R_BasisFunctions_ok (r : rspline T V) xs : rwf r -> rdomain r xs ->
  Forall (fun p => p < MAXB) (rdegrees r) ->
  exists fs, R_BasisFunctions MAXB r xs = Ok fs /\ length fs = n_coeffs (rdegrees r) /\
    forall i, i < n_coeffs (rdegrees r) -> nth i fs s0 = rbasis r xs i.
Proof.
  intros Hr HX HM. destruct (R_Unweighted_ok r xs Hr HX HM) as (fs & E & HL & HN).
  unfold R_BasisFunctions. rewrite compatible_ok by auto. cbn [assert_ bind]. rewrite E. cbn [bind].
  assert (HLw : length (control_points (weight_function r)) = n_coeffs (rdegrees r)).
  { destruct Hr as (_ & (_ & _ & _ & ->) & Hd). now rewrite Hd. }
  edestruct (map_loop s0 fs (fun i f => smul f (nth i (control_points (weight_function r)) s0))) as (l & El & Hl & Hv).
  2:{ exists l. split; [exact El|]. split; [congruence|]. intros i Hi. rewrite Hv by lia. rewrite HN by auto.
      unfold rbasis. destruct HX as (_ & HX). field. auto. }
  cbv beta. intros i c Hi Hc. rewrite (get_ok s0) by lia. cbn [bind]. rewrite (get_ok s0) by lia. reflexivity.
Qed.

Lemma R_ForwardEvaluate_ok (r : rspline T V) xs : rwf r -> length xs = length (rdegrees r) ->
  Forall (fun p => p < MAXB) (rdegrees r) ->
  R_ForwardEvaluate MAXB r xs = Ok (value_at (weighted_spline r) xs).
Proof.
  intros Hr HX HM. unfold R_ForwardEvaluate. rewrite compatible_ok by auto. cbn [assert_ bind].
  destruct Hr as (Hu & _). pose proof (ForwardEvaluate_ok MAXB HB (weighted_spline r) xs Hu HX HM) as E.
  unfold ForwardEvaluate in E. exact E.
Qed.
End Basis.

(** ** Pointwise maps *)
Lemma rvalue_scale_num (g : V -> V) u u' (w : spline T) (xs : list T) :
  (forall a, g (vscale (sdiv s1 (value_at w xs)) a) = vscale (sdiv s1 (value_at w xs)) (g a)) ->
  value_at u' xs = g (value_at u xs) ->
  rvalue (mkR u' w) xs = g (rvalue (mkR u w) xs).
Proof. intros H E. unfold rvalue. cbn [weighted_spline weight_function]. rewrite E, H. reflexivity. Qed.

Lemma racts_num (r : rspline T V) (call : res (rspline T V)) (u' : spline V) (g : V -> V) :
  rwf r -> call = R_mk u' (weight_function r) \/ call = Ok (mkR u' (weight_function r)) ->
  wf u' -> degrees u' = rdegrees r ->
  (forall xs : list T, rdomain r xs -> rvalue (mkR u' (weight_function r)) xs = g (rvalue r xs)) ->
  racts_pointwise r call g.
Proof.
  intros Hr Hc Hu Hd HV. pose proof Hr as (H1 & H2 & H3). unfold rdegrees in Hd.
  assert (Hc' : call = Ok (mkR u' (weight_function r))).
  { destruct Hc as [-> | ->]; auto. apply R_mk_ok. congruence. }
  assert (Hr' : rwf (mkR u' (weight_function r))).
  { split; [|split]; cbn [weighted_spline weight_function]; auto. congruence. }
  exists (mkR u' (weight_function r)). split; auto. split; auto. split; [reflexivity|].
  intros xs HX. exists (rvalue r xs). split; [apply R_Evaluate_ok; auto|].
  rewrite R_Evaluate_ok; auto; [rewrite HV; auto|].
  destruct HX as (HX & HN). split; [|exact HN]. unfold rdegrees in *. cbn [weighted_spline]. congruence.
Qed.

Lemma rmk_id (r : rspline T V) : mkR (weighted_spline r) (weight_function r) = r.
Proof. destruct r. reflexivity. Qed.

Lemma R_scale_ok (r : rspline T V) c : rwf r ->
  racts_pointwise r (R_scale_assign r c) (fun a => vscale c a) /\
  racts_pointwise r (R_scale r c) (fun a => vscale c a).
Proof.
  intros Hr. pose proof Hr as (Hu & Hw & Hd).
  assert (A : racts_pointwise r (R_scale_assign r c) (fun a => vscale c a)).
  { apply (racts_num r _ (with_cps (weighted_spline r) (map (fun x => vscale c x) (control_points (weighted_spline r))))); auto.
    - left. unfold R_scale_assign, scale_assign. rewrite map_points_ok by auto. reflexivity.
    - apply wf_map; auto.
    - intros xs HX. rewrite <- (rmk_id r) at 3. apply (rvalue_scale_num (fun a => vscale c a)).
      + intros a. vring.
      + apply value_scale. auto. }
  split; auto.
Qed.

Lemma R_neg_ok (r : rspline T V) : rwf r -> racts_pointwise r (R_neg r) (fun a => vopp a).
Proof.
  intros Hr. pose proof Hr as (Hu & Hw & Hd).
  apply (racts_num r _ (with_cps (weighted_spline r) (map vopp (control_points (weighted_spline r))))); auto.
  - left. unfold R_neg. rewrite spline_neg_ok by auto. reflexivity.
  - apply wf_map; auto.
  - intros xs HX. rewrite <- (rmk_id r) at 3. apply (rvalue_scale_num (fun a => vopp a)).
    + intros a. vring.
    + apply value_neg. auto.
Qed.

Lemma bezier_weights degs (xs : list T) (f : nat -> T) (q : V) :
  bezier degs xs (fun i => vscale (f i) q) = vscale (bezier degs xs f) q.
Proof.
  revert xs f; induction degs; intros [|x xs] f; try reflexivity.
  rewrite !bezier_cons. rewrite <- ssum_vsum, <- vsum_scale_l. apply vsum_ext. intros j Hj. rewrite IHdegs.
  symmetry. apply vm_mul.
Qed.

Lemma shift_loop_ok (op : V -> V -> V) (r : rspline T V) p : rwf r ->
  exists c, R_shift_loop op r p = Ok (with_cps (weighted_spline r) c) /\
    length c = length (control_points (weighted_spline r)) /\
    forall i, i < n_coeffs (rdegrees r) -> nth i c v0 =
      op (nth i (control_points (weighted_spline r)) v0) (vscale (nth i (control_points (weight_function r)) s0) p).
Proof.
  intros ((Hud & Hun & Huo & Huc) & (_ & _ & _ & Hwc) & Hd). unfold R_shift_loop, rdegrees.
  rewrite Hun, <- Huc.
  edestruct (map_loop v0 (control_points (weighted_spline r))
    (fun i x => op x (vscale (nth i (control_points (weight_function r)) s0) p))) as (c & E & HL & HN).
  2:{ rewrite E. cbn [bind]. exists c. auto. }
  cbv beta. intros i c Hi Hc. rewrite (get_ok v0) by lia. cbn [bind]. rewrite (get_ok s0) by (rewrite Hwc, Hd; lia). reflexivity.
Qed.

Lemma R_shift_ok (r : rspline T V) p : rwf r ->
  racts_pointwise r (R_shift_assign r p) (fun a => vadd a p) /\
  racts_pointwise r (R_shift r p) (fun a => vadd a p) /\
  racts_pointwise r (R_unshift_assign r p) (fun a => vsub a p) /\
  racts_pointwise r (R_unshift r p) (fun a => vsub a p).
Proof.
  intros Hr. pose proof Hr as (Hu & Hw & Hd).
  assert (B : forall (op : V -> V -> V), (op = vadd \/ op = vsub) ->
    exists u', R_shift_loop op r p = Ok u' /\ wf u' /\ degrees u' = rdegrees r /\
    forall xs, rdomain r xs -> rvalue (mkR u' (weight_function r)) xs = op (rvalue r xs) p).
  { intros op Hop. destruct (shift_loop_ok op r p Hr) as (c & E & HL & HN).
    exists (with_cps (weighted_spline r) c). split; auto.
    split; [apply wf_upd; auto|]. split; [reflexivity|].
    intros xs (HX & H0).
    assert (E1 : value_at (with_cps (weighted_spline r) c) xs =
      op (value_at (weighted_spline r) xs) (vscale (value_at (weight_function r) xs) p)).
    { unfold value_at. cbn [with_cps degrees control_points]. rewrite Hd, <- bezier_weights.
      destruct Hop as [-> | ->].
      - rewrite <- bezier_add. apply bezier_ext. intros i Hi. apply HN. exact Hi.
      - rewrite <- bezier_sub. apply bezier_ext. intros i Hi. apply HN. exact Hi. }
    unfold rvalue. cbn [weighted_spline weight_function]. rewrite E1.
    assert (E2 : vscale (sdiv s1 (value_at (weight_function r) xs)) (vscale (value_at (weight_function r) xs) p) = p).
    { rewrite <- vm_mul. rewrite <- (vm_1 p) at 2. f_equal. field. auto. }
    destruct Hop as [-> | ->].
    - rewrite vm_dr, E2. reflexivity.
    - rewrite <- E2 at 2. vring. }
  destruct (B vadd (or_introl eq_refl)) as (ua & Ea & Wa & Da & Va).
  destruct (B vsub (or_intror eq_refl)) as (us & Es & Ws & Ds & Vs).
  split; [|split; [|split]].
  - apply (racts_num r _ ua); auto. left. unfold R_shift_assign. rewrite Ea. reflexivity.
  - apply (racts_num r _ ua); auto. left. unfold R_shift. rewrite R_mk_ok by auto. cbn [bind].
    rewrite rmk_id. unfold R_shift_assign. rewrite Ea. reflexivity.
  - apply (racts_num r _ us); auto. right. unfold R_unshift_assign. rewrite Es. reflexivity.
  - apply (racts_num r _ us); auto. right. unfold R_unshift. rewrite R_mk_ok by auto. cbn [bind].
    rewrite rmk_id. unfold R_unshift_assign. rewrite Es. reflexivity.
Qed.
End R.
