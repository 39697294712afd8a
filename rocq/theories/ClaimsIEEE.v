(** C89 and C90: evaluation and subdivision with bounded exponents. *)
From Coq Require Import Arith Lia List ZArith NArith Bool Reals Lra Psatz.
From Verif Require Import Prelude Scalar Spec SpecSpline Sums Order Coord ModelBasis ModelSpline ModelRational
  ModelRound SpecRound ModelIEEE SpecIEEE ProofIndex ProofBasis ProofEval ProofArith ProofSplit ProofParam ProofCasteljau ProofRaw ProofRound ProofRoundEval ProofRoundOps ProofIEEE ProofIEEEEval ClaimsU ClaimsRoundOps.
Import ListNotations.
Local Open Scope R_scope.

(** ** C89 *)
Lemma c89_formats : reasonable binary64 /\ reasonable binary32.
Proof. unfold reasonable; simpl; lia. Qed.
(** numeric_limits::max and denorm_min. *)
Lemma powerRZ_nat n : powerRZ 2 (Z.of_nat n) = 2 ^ n.
Proof. now rewrite pow_powerRZ. Qed.
Lemma omega_is a b c F : prec F = a -> emax F = Z.of_nat b -> c = (a + b)%nat -> omega F = 2 ^ c - 2 ^ b.
Proof. intros P E ->. unfold omega. rewrite P, E, powerRZ_nat, pow_add. ring. Qed.
Lemma tiny_is b F : (0 < b)%nat -> emin F = (- Z.of_nat b)%Z -> tiny F = / 2 ^ b.
Proof. intros Hb E. unfold tiny. rewrite E, powerRZ_neg', powerRZ_nat. reflexivity. Qed.
Lemma c89_limits :
  omega binary64 = 2 ^ 1024 - 2 ^ 971 /\ tiny binary64 = / 2 ^ 1074 /\
  omega binary32 = 2 ^ 128 - 2 ^ 104 /\ tiny binary32 = / 2 ^ 149.
Proof.
  split; [|split; [|split]].
  - apply (omega_is 53 971 1024); reflexivity.
  - apply tiny_is; [lia|reflexivity].
  - apply (omega_is 24 104 128); reflexivity.
  - apply tiny_is; [lia|reflexivity].
Qed.
Lemma c89_rounding_exists : forall F, reasonable F -> exists rnd, nearest_on_grid F rnd.
Proof. intros F HF. exists (grid_round F). apply nearest_grid_round; auto. Qed.
Lemma c89_evaluate : forall F rnd d (s : spline (point R d)) xs, reasonable F -> nearest_on_grid F rnd ->
  wf s -> length xs = length (degrees s) -> in_unit_box xs -> Forall (on_grid F) xs -> machine_points F s ->
  exists e, Evaluate_ieee F rnd (fin_spline s) (map Fin xs) = Ok (fin_point d e) /\ forall k, (k < d)%nat ->
    machine F (coord d e k) /\
    Rabs (coord d e k - coord d (value_at s xs) k) <=
      gamma (prec F) (casteljau_roundings (degrees s)) * magnitude s xs k + underflow F (list_sum (degrees s)).
Proof.
  intros F rnd d s xs HF HR Hw HL HX HG HM.
  destruct (Evaluate_lift F rnd (ov := Vr rnd d) (ow := VOps_point fl d (o := SOps_ieee F rnd)) (fin_point d) (machine_point F)
    (step_point F rnd d HF HR) (fin_point_0 F rnd d) s (fin_spline s) Hw HM eq_refl eq_refl eq_refl eq_refl xs HL HG HX) as (e & E1 & E2 & M).
  exists e. split; [exact E2|]. intros k Hk. split; [apply M; auto|]. rewrite Evaluate_dct in E1 by auto. injection E1 as <-.
  rewrite coord_dct_rnd by auto. rewrite coord_value. unfold magnitude. rewrite <- !dct_bezier by auto.
  destruct (dct_eb F HF rnd HR (degrees s) xs HL HG HX (fun i => coord d (nth i (control_points s) v0) k)
    (fun i => coord d (nth i (control_points s) v0) k) (fun i => Rabs (coord d (nth i (control_points s) v0) k)) 0) as (K & _); [|exact K].
  intros. apply Eb_exact.
Qed.
Lemma c89_evaluate_scalar : forall F rnd (s : spline R) xs, reasonable F -> nearest_on_grid F rnd ->
  wf s -> length xs = length (degrees s) -> in_unit_box xs -> Forall (on_grid F) xs -> machine_coeffs F s ->
  exists e, Evaluate_ieee_s F rnd (fin_spline_s s) (map Fin xs) = Ok (Fin e) /\ machine F e /\
    Rabs (e - value_at s xs) <=
      gamma (prec F) (casteljau_roundings (degrees s)) * magnitude_s s xs + underflow F (list_sum (degrees s)).
Proof.
  intros F rnd s xs HF HR Hw HL HX HG HM.
  destruct (Evaluate_lift F rnd (ov := Vs rnd) (ow := VOps_scalar fl (o := SOps_ieee F rnd)) Fin (machine F)
    (step_fl F HF rnd HR) eq_refl s (fin_spline_s s) Hw HM eq_refl eq_refl eq_refl eq_refl xs HL HG HX) as (e & E1 & E2 & M).
  exists e. split; [exact E2|]. split; [exact M|]. rewrite Evaluate_dct in E1 by auto. injection E1 as <-.
  unfold magnitude_s, value_at. rewrite <- !dct_bezier by auto.
  destruct (dct_eb F HF rnd HR (degrees s) xs HL HG HX (fun i => nth i (control_points s) v0)
    (fun i => nth i (control_points s) v0) (fun i => Rabs (nth i (control_points s) v0)) 0) as (K & _); [|exact K].
  intros. apply Eb_exact.
Qed.
(** The part lost to underflow is at most twice the number of rounds times the smallest positive number. *)
Lemma c89_underflow : forall F n, INR (3 * n) * / 2 ^ prec F <= 1 / 2 -> 0 <= underflow F n <= 2 * INR n * tiny F.
Proof.
  intros F n H. destruct (c71_gamma (prec F) (3 * n) H) as (G1 & G2). unfold gamma in *. unfold underflow.
  assert (T : 0 < tiny F) by apply two_pos. pose proof (pos_INR n). assert (0 <= INR n * tiny F) by (apply Rmult_le_pos; lra).
  set (g := (1 + / 2 ^ prec F) ^ (3 * n)) in *. assert (1 <= g <= 2) by lra. split; nra.
Qed.

(** Corner parameters give control points exactly. *)
Lemma dc_corner_ieee F rnd x f r j : reasonable F -> nearest_on_grid F rnd -> x = 0 \/ x = 1 -> (forall i, on_grid F (f i)) ->
  dc (o := SOps_rnd rnd) (ov := Vs rnd) x f r j = (if Req_EM_T x 0 then f j else f (j + r)%nat).
Proof.
  intros HF HR Hx HG. pose proof (rnd_id F rnd HR) as I. revert j; induction r; intros j.
  - cbn [dc]. rewrite Nat.add_0_r. destruct (Req_EM_T x 0); auto.
  - cbn [dc vadd vscale VOps_scalar sadd smul ssub s1 SOps_rnd]. rewrite !IHr.
    destruct (Req_EM_T x 0) as [->|N].
    + rewrite Rminus_0_r, (I 1), Rmult_1_l, Rmult_0_l by (apply grid_1; auto).
      rewrite (I (f j)), (I 0), Rplus_0_r by (auto using grid_0). auto.
    + destruct Hx as [->| ->]; [lra|]. replace (1 - 1) with 0 by ring.
      rewrite (I 0), Rmult_1_l, Rmult_0_l by (apply grid_0).
      rewrite (I (f (S j + r)%nat)), (I 0), Rplus_0_l by (auto using grid_0).
      replace (j + S r)%nat with (S j + r)%nat by lia. auto.
Qed.
Lemma dct_corner_ieee F rnd degs xs f : reasonable F -> nearest_on_grid F rnd -> Forall (fun x => x = 0 \/ x = 1) xs ->
  (forall i, on_grid F (f i)) ->
  dct (o := SOps_rnd rnd) (ov := Vs rnd) degs xs f = dct (V := R) degs xs f.
Proof.
  intros HF HR. revert xs f; induction degs as [|q degs IH]; intros xs f HX HG; [reflexivity|].
  destruct xs as [|x xs]; [reflexivity|]. inversion HX; subst. cbn [dct].
  rewrite IH; auto.
  - apply dct_ext. intros m Hm. rewrite (dc_corner_ieee F), dc_corner_exact by auto. reflexivity.
  - intros m. rewrite (dc_corner_ieee F) by auto. destruct (Req_EM_T x 0); auto.
Qed.
Lemma c89_corners : forall F rnd d (s : spline (point R d)) xs, reasonable F -> nearest_on_grid F rnd ->
  wf s -> length xs = length (degrees s) -> Forall (fun x => x = 0 \/ x = 1) xs -> machine_points F s ->
  Evaluate_ieee F rnd (fin_spline s) (map Fin xs) = Ok (fin_point d (value_at s xs)).
Proof.
  intros F rnd d s xs HF HR Hw HL HC HM.
  assert (HX : in_unit_box xs) by (eapply Forall_impl; [|exact HC]; cbv beta; intros; lra).
  assert (HG : Forall (on_grid F) xs).
  { eapply Forall_impl; [|exact HC]. cbv beta. intros a [->| ->]; [apply grid_0|apply grid_1; auto]. }
  destruct (Evaluate_lift F rnd (ov := Vr rnd d) (ow := VOps_point fl d (o := SOps_ieee F rnd)) (fin_point d) (machine_point F)
    (step_point F rnd d HF HR) (fin_point_0 F rnd d) s (fin_spline s) Hw HM eq_refl eq_refl eq_refl eq_refl xs HL HG HX) as (e & E1 & E2 & _).
  unfold Evaluate_ieee. rewrite E2. rewrite Evaluate_dct in E1 by auto. injection E1 as <-. do 2 f_equal.
  apply (point_ext (o := SOps_R)). intros k Hk. rewrite coord_dct_rnd, coord_value by auto. rewrite <- dct_bezier by auto.
  apply (dct_corner_ieee F); auto. intros i. destruct (lt_dec i (length (control_points s))) as [Hi|Hi].
  - eapply Forall_forall in HM; [|apply nth_In; exact Hi]. apply HM; auto.
  - rewrite nth_overflow by lia. change (v0 (V := point R d)) with (pconst d 0). rewrite (coord_const (o := SOps_R)) by auto. apply grid_0.
Qed.
(** Outside the unit interval a value between finite control points can overflow. *)
Lemma c89_outside : forall F rnd, reasonable F -> nearest_on_grid F rnd ->
  exists (s : spline R) x, wf s /\ degrees s = [1%nat] /\ machine_coeffs F s /\ machine F x /\
    Evaluate_ieee_s F rnd (fin_spline_s s) [Fin x] = Ok Exc.
Proof.
  intros F rnd HF HR. pose proof (omega_pos F HF) as PO.
  assert (MO : machine F (omega F)) by (split; [apply grid_omega; auto|rewrite Rabs_right; lra]).
  exists (mkSpline [1%nat] 2 [1%nat] [0; omega F]), 2.
  assert (Hw : wf (mkSpline [1%nat] 2 [1%nat] [0; omega F])).
  { split; [discriminate|]. repeat split. }
  split; [exact Hw|]. split; [reflexivity|]. split.
  { constructor; [split; [apply grid_0|rewrite Rabs_R0; lra]|]. constructor; [exact MO|constructor]. }
  assert (G2 : on_grid F 2) by (replace 2 with (powerRZ 2 1) by (simpl; ring); apply grid_w; auto; destruct HF as (? & ? & ?); lia).
  split.
  { split; [exact G2|]. rewrite Rabs_right by lra. destruct HF as (H1 & H2 & H3). rewrite (omega_eq F).
    assert (1 <= IZR (2 ^ Z.of_nat (prec F) - 1)).
    { apply IZR_le. pose proof (P_half F (conj H1 (conj H2 H3))). assert (0 < 2 ^ Z.of_nat (prec F - 1))%Z by (apply Z.pow_pos_nonneg; lia). lia. }
    assert (2 <= powerRZ 2 (emax F)) by (replace 2 with (powerRZ 2 1) at 1 by (simpl; ring); apply two_le; lia). nra. }
  unfold Evaluate_ieee_s. rewrite Evaluate_dct; [| |reflexivity].
  2:{ split; [discriminate|]. repeat split. }
  cbn [fin_spline_s degrees control_points map dct dc vadd vscale VOps_scalar Nat.add Nat.mul nth]. f_equal.
  assert (E : smul (SOps := SOps_ieee F rnd) (Fin 2) (Fin (omega F)) = Exc).
  { cbn [smul SOps_ieee fl_lift2]. unfold deliver. rewrite (rnd_id F rnd HR).
    - destruct (Rle_dec _ _) as [L|]; auto. rewrite Rabs_right in L by lra. lra.
    - replace (2 * omega F) with (omega F * powerRZ 2 1) by (simpl; ring). apply grid_omega_shift; auto. destruct HF as (? & ? & ?). lia. }
  rewrite E. cbn [sadd SOps_ieee]. unfold fl_lift2 at 1. destruct (smul (ssub s1 (Fin 2)) (Fin 0)); reflexivity.
Qed.

(** ** C90 *)
Lemma fin_point_inj d (a b : point R d) : fin_point d a = fin_point d b -> a = b.
Proof.
  revert a b; induction d as [|d IH]; [intros [] []; auto|]. intros (a & a') (b & b') H. cbn [fin_point fst snd] in H. injection H as H1 H2. f_equal; auto.
Qed.
Lemma fin_points_inj d (a b : list (point R d)) : map (fin_point d) a = map (fin_point d) b -> a = b.
Proof.
  revert b; induction a as [|z a IH]; intros [|y b] H; try discriminate; auto. cbn [map] in H. injection H as H1 H2. f_equal; auto. apply fin_point_inj; auto.
Qed.
Lemma dc_eb_bound F rnd x f B q r j : reasonable F -> nearest_on_grid F rnd -> on_grid F x -> 0 <= x <= 1 -> (r <= q)%nat ->
  (forall i, (j <= i <= j + r)%nat -> Rabs (f i) <= B) ->
  Rabs (dc (o := SOps_rnd rnd) (ov := Vs rnd) x f r j - dc (V := R) x f r j) <= gamma (prec F) (3 * q) * B + underflow F q.
Proof.
  intros HF HR Gx Hx Hq H. pose proof (unit_pos (prec F)) as Hu.
  destruct (dc_eb F HF rnd HR x f f (fun i => Rabs (f i)) r Gx Hx 0 j) as (E & _); [intros; apply Eb_exact|].
  rewrite Nat.add_0_l in E. eapply Rle_trans; [exact E|]. unfold gamma.
  assert (N : 0 <= dc (V := R) x (fun i => Rabs (f i)) r j) by (apply dc_nonneg; auto; intros; apply Rabs_pos).
  assert (L : dc (V := R) x (fun i => Rabs (f i)) r j <= B) by (apply (dc_le (prec F) (proj1 HF)); auto).
  assert (P := u_pow (/ 2 ^ prec F) Hu (3 * r)). assert (P2 := u_pow_le (/ 2 ^ prec F) Hu (3 * r) (3 * q) ltac:(lia)).
  apply Rplus_le_compat; [apply Rmult_le_compat; [lra|exact N|lra|exact L]|].
  unfold underflow. assert (T : 0 < tiny F) by apply two_pos. assert (INR r <= INR q) by (apply le_INR; auto). pose proof (pos_INR r).
  apply Rmult_le_compat; [apply Rmult_le_pos; lra|lra| |exact P2]. apply Rmult_le_compat_r; lra.
Qed.
Section Split.
Context (F : format) (rnd : R -> R) (HF : reasonable F) (HR : nearest_on_grid F rnd).
Context {V W : Type} {ovr ov : VOps R V} {M : VMod R V} {ow : VOps fl W} (j : V -> W) (mach : V -> Prop) (pr : V -> R).
Context (Hstep : forall x a b, on_grid F x -> 0 <= x <= 1 -> mach a -> mach b ->
  vadd (vscale (ssub (SOps := SOps_ieee F rnd) (s1 (SOps := SOps_ieee F rnd)) (Fin x)) (j a)) (vscale (Fin x) (j b)) =
    j (vadd (VOps := ovr) (vscale (VOps := ovr) (rnd (1 - x)) a) (vscale (VOps := ovr) x b)) /\
  mach (vadd (VOps := ovr) (vscale (VOps := ovr) (rnd (1 - x)) a) (vscale (VOps := ovr) x b))).
Context (v0_j : v0 (V := W) = j (v0 (VOps := ovr))).
Context (pr_add : forall a b, pr (vadd (VOps := ov) a b) = pr a + pr b)
        (pr_scale : forall c a, pr (vscale (VOps := ov) c a) = c * pr a)
        (pr_add_r : forall a b, pr (vadd (VOps := ovr) a b) = rnd (pr a + pr b))
        (pr_scale_r : forall c a, pr (vscale (VOps := ovr) c a) = rnd (c * pr a))
        (v0_r : v0 (VOps := ovr) = v0 (VOps := ov)).
Definition jspline (s : spline V) : spline W := mkSpline (degrees s) (number_of_control_points s) (index_offsets s) (map j (control_points s)).
Lemma split_ieee (s : spline V) x k : wf s -> Forall mach (control_points s) -> (k < length (degrees s))%nat -> on_grid F x -> 0 < x < 1 ->
  exists l r l0 r0, SplitAtPosition (o := SOps_ieee F rnd) (ov := ow) (jspline s) (Fin x) k = Ok [jspline l; jspline r] /\
    SplitAtPosition (ov := ov) s x k = Ok [l0; r0] /\
    wf l /\ wf r /\ degrees l = degrees s /\ degrees r = degrees s /\ Forall mach (control_points l) /\ Forall mach (control_points r) /\
    forall B, below pr (control_points s) B ->
    (forall i, (i < n_coeffs (degrees s))%nat ->
      Rabs (pr (nth i (control_points l) v0) - pr (nth i (control_points l0) v0)) <= gamma (prec F) (3 * nth k (degrees s) 0%nat) * B + underflow F (nth k (degrees s) 0%nat) /\
      Rabs (pr (nth i (control_points r) v0) - pr (nth i (control_points r0) v0)) <= gamma (prec F) (3 * nth k (degrees s) 0%nat) * B + underflow F (nth k (degrees s) 0%nat)) /\
    forall xs, length xs = length (degrees s) -> in_unit_box xs ->
      Rabs (pr (value_at l xs) - pr (value_at s (upd_list xs k (x * nth k xs 0)))) <= gamma (prec F) (3 * nth k (degrees s) 0%nat) * B + underflow F (nth k (degrees s) 0%nat) /\
      Rabs (pr (value_at r xs) - pr (value_at s (upd_list xs k (x + (1 - x) * nth k xs 0)))) <= gamma (prec F) (3 * nth k (degrees s) 0%nat) * B + underflow F (nth k (degrees s) 0%nat).
Proof using HF HR M Hstep v0_j pr_add pr_scale pr_add_r pr_scale_r v0_r.
  intros Hw HM Hk Gx Hx. assert (Hx' : 0 <= x <= 1) by lra.
  destruct (Split_lift F rnd (ov := ovr) (ow := ow) j mach Hstep v0_j s (jspline s) Hw HM eq_refl eq_refl eq_refl eq_refl x k Hk Gx Hx)
    as (c1 & c2 & E00 & E & M1 & M2 & L1 & L2 & N1); clear E00.
  assert (H0 : slt (s0 (SOps := SOps_R)) x) by (unfold slt; cbn [sltb s0 SOps_R]; destruct (Rlt_dec R0 x) as [|N]; auto; change R0 with 0 in N; lra).
  assert (H1 : slt x (s1 (SOps := SOps_R))) by (unfold slt; cbn [sltb s1 SOps_R]; destruct (Rlt_dec x R1) as [|N]; auto; change R1 with 1 in N; lra).
  destruct (SplitAtPosition_raw (ov := ov) s x k Hw Hk H0 H1) as (d1 & d2 & E' & L1' & L2' & N2).
  destruct (Split_values s x k Hw Hk H0 H1) as (l0 & r0 & E2 & Wl & Wr & Dl & Dr & HV).
  rewrite E' in E2. injection E2 as El Er'.
  assert (Lc : length (control_points s) = n_coeffs (degrees s)) by apply Hw.
  assert (Wl' : wf (with_cps s c1)) by (apply with_cps_wf; auto; congruence).
  assert (Wr' : wf (with_cps s c2)) by (apply with_cps_wf; auto; congruence).
  exists (with_cps s c1), (with_cps s c2), l0, r0. split; [exact E|]. split; [rewrite E'; congruence|]. do 4 (split; [auto|]). do 2 (split; [assumption|]).
  intros B HB. rewrite fl_nth in HB. rewrite Lc in HB. set (q := nth k (degrees s) 0%nat) in *.
  assert (Key : forall i, (i < n_coeffs (degrees s))%nat ->
    Rabs (pr (nth i c1 v0) - pr (nth i d1 v0)) <= gamma (prec F) (3 * q) * B + underflow F q /\
    Rabs (pr (nth i c2 v0) - pr (nth i d2 v0)) <= gamma (prec F) (3 * q) * B + underflow F q).
  { intros i Hi. destruct (N1 i Hi) as (a & m & jj & Ha & Hj & Hm & Ei & Hb & A1 & A2).
    destruct (N2 a jj m Ha Hj Hm) as (B1 & B2). rewrite <- Ei in B1, B2. rewrite v0_r in A1, A2. rewrite A1, A2, B1, B2.
    rewrite !(pr_dc_r rnd (ovr := ovr) pr pr_add_r pr_scale_r), !(pr_dc (ov := ov) pr pr_add pr_scale).
    split; apply dc_eb_bound; auto; try lia; intros i' Hi'; apply HB, Hb; fold q in Hj; lia. }
  subst l0 r0. split; [exact Key|].
  intros xs HX HU. destruct (HV xs HX) as (V1 & V2). cbn [smul sadd ssub s0 s1 SOps_R] in V1, V2. change R0 with 0 in V1, V2. change R1 with 1 in V1, V2.
  rewrite <- V1, <- V2. split; apply (close_values pr pr_add pr_scale); auto; intros i Hi; apply Key; auto.
Qed.
End Split.
Lemma c90_split : forall F rnd d (s : spline (point R d)) x k, reasonable F -> nearest_on_grid F rnd ->
  wf s -> (k < length (degrees s))%nat -> on_grid F x -> 0 < x < 1 -> machine_points F s ->
  exists l r l0 r0, SplitAtPosition_ieee F rnd (fin_spline s) (Fin x) k = Ok [fin_spline l; fin_spline r] /\
    SplitAtPosition s x k = Ok [l0; r0] /\
    wf l /\ wf r /\ degrees l = degrees s /\ degrees r = degrees s /\ machine_points F l /\ machine_points F r /\
    forall c B, (c < d)%nat -> coord_bound s c B ->
      let err := gamma (prec F) (3 * nth k (degrees s) 0%nat) * B + underflow F (nth k (degrees s) 0%nat) in
      (forall i, (i < n_coeffs (degrees s))%nat ->
        Rabs (coord d (nth i (control_points l) v0) c - coord d (nth i (control_points l0) v0) c) <= err /\
        Rabs (coord d (nth i (control_points r) v0) c - coord d (nth i (control_points r0) v0) c) <= err) /\
      forall xs, length xs = length (degrees s) -> in_unit_box xs ->
        Rabs (coord d (value_at l xs) c - coord d (value_at s (upd_list xs k (x * nth k xs 0))) c) <= err /\
        Rabs (coord d (value_at r xs) c - coord d (value_at s (upd_list xs k (x + (1 - x) * nth k xs 0))) c) <= err.
Proof.
  intros F rnd d s x k HF HR Hw Hk Gx Hx HM.
  assert (Z : rnd 0 = 0) by (apply (ProofIEEE.rnd_0 F rnd HR)).
  destruct (split_ieee F rnd HF HR (ovr := Vr rnd d) (ow := VOps_point fl d (o := SOps_ieee F rnd)) (fin_point d) (machine_point F) (fun _ => 0)
    (step_point F rnd d HF HR) (fin_point_0 F rnd d) ltac:(intros; lra) ltac:(intros; lra) ltac:(intros; rewrite Rplus_0_r; auto)
    ltac:(intros; rewrite Rmult_0_r; auto) eq_refl s x k Hw HM Hk Gx Hx) as (l & r & l0 & r0 & E & E0 & W1 & W2 & D1 & D2 & M1 & M2 & _).
  exists l, r, l0, r0. split; [exact E|]. do 7 (split; [assumption|]). intros c B Hc HB. cbv zeta.
  destruct (split_ieee F rnd HF HR (ovr := Vr rnd d) (ow := VOps_point fl d (o := SOps_ieee F rnd)) (fin_point d) (machine_point F) (fun q => coord d q c)
    (step_point F rnd d HF HR) (fin_point_0 F rnd d) ltac:(hom) ltac:(hom) (fun a b => coord_add_rnd rnd d a b c Hc) (fun x a => coord_scale_rnd rnd d x a c Hc)
    eq_refl s x k Hw HM Hk Gx Hx) as (l' & r' & l0' & r0' & E' & E0' & W1' & W2' & D1' & D2' & _ & _ & K).
  rewrite E0 in E0'. injection E0' as <- <-. rewrite E in E'. injection E' as _ _ _ El _ _ _ Er'.
  apply fin_points_inj in El, Er'. specialize (K B (below_coord s c B Hw HB)). unfold value_at in *. rewrite El, Er', D1, D2. rewrite D1', D2' in K. exact K.
Qed.
Lemma c90_split_scalar : forall F rnd (s : spline R) x k, reasonable F -> nearest_on_grid F rnd ->
  wf s -> (k < length (degrees s))%nat -> on_grid F x -> 0 < x < 1 -> machine_coeffs F s -> forall B, coeff_bound s B ->
  exists l r l0 r0, SplitAtPosition_ieee_s F rnd (fin_spline_s s) (Fin x) k = Ok [fin_spline_s l; fin_spline_s r] /\
    SplitAtPosition s x k = Ok [l0; r0] /\
    wf l /\ wf r /\ degrees l = degrees s /\ degrees r = degrees s /\ machine_coeffs F l /\ machine_coeffs F r /\
    let err := gamma (prec F) (3 * nth k (degrees s) 0%nat) * B + underflow F (nth k (degrees s) 0%nat) in
    (forall i, (i < n_coeffs (degrees s))%nat ->
      Rabs (nth i (control_points l) 0 - nth i (control_points l0) 0) <= err /\
      Rabs (nth i (control_points r) 0 - nth i (control_points r0) 0) <= err) /\
    forall xs, length xs = length (degrees s) -> in_unit_box xs ->
      Rabs (value_at l xs - value_at s (upd_list xs k (x * nth k xs 0))) <= err /\
      Rabs (value_at r xs - value_at s (upd_list xs k (x + (1 - x) * nth k xs 0))) <= err.
Proof.
  intros F rnd s x k HF HR Hw Hk Gx Hx HM B HB.
  destruct (split_ieee F rnd HF HR (V := R) (ovr := Vs rnd) (ov := VOps_scalar R (o := SOps_R)) (ow := VOps_scalar fl (o := SOps_ieee F rnd)) Fin (machine F) (fun q => q)
    (step_fl F HF rnd HR) eq_refl (fun _ _ => eq_refl) (fun _ _ => eq_refl) (fun _ _ => eq_refl) (fun _ _ => eq_refl) eq_refl
    s x k Hw HM Hk Gx Hx) as (l & r & l0 & r0 & E & E0 & W1 & W2 & D1 & D2 & M1 & M2 & K).
  exists l, r, l0, r0. split; [exact E|]. do 7 (split; [assumption|]). exact (K B (below_coeff s B Hw HB)).
Qed.

(** ** C91 *)
Section Elevate.
Context (F : format) (rnd : R -> R) (HF : reasonable F) (HR : nearest_on_grid F rnd).
Context {V W : Type} {ovr ov : VOps R V} {M : VMod R V} {ow : VOps fl W} (j : V -> W) (mach : V -> Prop) (pr : V -> R).
Context (Hstep : forall x a b, on_grid F x -> 0 <= x <= 1 -> mach a -> mach b ->
  vadd (vscale (ssub (SOps := SOps_ieee F rnd) (s1 (SOps := SOps_ieee F rnd)) (Fin x)) (j a)) (vscale (Fin x) (j b)) =
    j (vadd (VOps := ovr) (vscale (VOps := ovr) (rnd (1 - x)) a) (vscale (VOps := ovr) x b)) /\
  mach (vadd (VOps := ovr) (vscale (VOps := ovr) (rnd (1 - x)) a) (vscale (VOps := ovr) x b))).
Context (v0_j : v0 (V := W) = j (v0 (VOps := ovr))) (m0 : mach (v0 (VOps := ovr))).
Context (pr_add : forall a b, pr (vadd (VOps := ov) a b) = pr a + pr b)
        (pr_scale : forall c a, pr (vscale (VOps := ov) c a) = c * pr a)
        (pr_add_r : forall a b, pr (vadd (VOps := ovr) a b) = rnd (pr a + pr b))
        (pr_scale_r : forall c a, pr (vscale (VOps := ovr) c a) = rnd (c * pr a))
        (v0_r : v0 (VOps := ovr) = v0 (VOps := ov)).
Lemma elevate_ieee (s : spline V) k : wf s -> Forall mach (control_points s) -> (k < length (degrees s))%nat ->
  (Z.of_nat (nth k (degrees s) 0%nat + 1) < 2 ^ Z.of_nat (prec F))%Z ->
  (Z.of_nat (n_coeffs (upd_list (degrees s) k (S (nth k (degrees s) 0%nat)))) < 2 ^ 31)%Z ->
  exists e e0, OrderElevate (o := SOps_ieee F rnd) (ov := ow) (jspline j s) k = Ok (jspline j e) /\
    OrderElevate (ov := ov) s k = Ok e0 /\ wf e /\ wf e0 /\
    degrees e = upd_list (degrees s) k (S (nth k (degrees s) 0%nat)) /\ degrees e0 = degrees e /\ Forall mach (control_points e) /\
    forall B, below pr (control_points s) B ->
    (forall i, (i < n_coeffs (degrees e))%nat ->
      Rabs (pr (nth i (control_points e) v0) - pr (nth i (control_points e0) v0)) <= (gamma (prec F) 3 + 2 * gamma (prec F) 2) * B + underflow F 1) /\
    forall xs, length xs = length (degrees s) -> in_unit_box xs ->
      Rabs (pr (value_at e xs) - pr (value_at s xs)) <= (gamma (prec F) 3 + 2 * gamma (prec F) 2) * B + underflow F 1.
Proof using HF HR M Hstep v0_j m0 pr_add pr_scale pr_add_r pr_scale_r v0_r.
  intros Hw HM Hk Hq Hsz. set (q := nth k (degrees s) 0%nat) in *. assert (Es : S q = (q + 1)%nat) by lia. rewrite Es in *.
  destruct (Elevate_lift F HF rnd HR (ov := ovr) (ow := ow) j mach Hstep v0_j s (jspline j s) Hw HM eq_refl eq_refl eq_refl eq_refl m0 k Hk Hq Hsz)
    as (c & _ & E & MC & Ec). fold q in E, Ec.
  assert (Z2 : seqb (sofnat (q + 1)) (s0 : R) = false).
  { rewrite sofnat_INR. cbn [seqb s0 SOps_R]. destruct (Req_EM_T (INR (q + 1)) R0) as [Z|]; auto.
    exfalso. assert (0 < INR (q + 1)) by (apply lt_0_INR; lia). change R0 with 0 in Z. lra. }
  destruct (OrderElevate_step s k Hw Hk) as (e0 & E0 & We0 & De0 & SV). { fold q. rewrite Es. exact Hsz. }
  fold q in De0. rewrite Es in De0.
  pose proof (OrderElevate_raw (ov := ov) s k Hw Hk Z2 Hsz) as E1. fold q in E1. rewrite E0 in E1. injection E1 as E1.
  set (degs' := upd_list (degrees s) k (q + 1)%nat) in *. set (off := n_coeffs (firstn k (degrees s))) in *.
  assert (We : wf (mk degs' c)).
  { apply wf_mk; [|rewrite Ec; unfold relev_points; rewrite map_length, seq_length; auto].
    unfold degs'. destruct Hw as (Hne & _). intros Z. apply (f_equal (@length nat)) in Z. rewrite length_upd in Z. destruct (degrees s); simpl in *; [congruence|lia]. }
  exists (mk degs' c), e0. split; [exact E|]. split; [exact E0|]. split; [exact We|]. split; [exact We0|]. split; [reflexivity|]. split; [exact De0|]. split; [exact MC|].
  intros B HB. assert (Hoff : (0 < off)%nat) by apply n_coeffs_pos.
  set (cnt := n_coeffs (skipn (S k) (degrees s))).
  assert (Etot : n_coeffs (degrees s) = (off * (q + 1) * cnt)%nat).
  { rewrite (n_coeffs_split (degrees s) k), (skipn_cons_nth 0%nat (degrees s) k) by auto.
    rewrite n_coeffs_cons. fold q off cnt. lia. }
  assert (Etot' : n_coeffs degs' = (off * (q + 2) * cnt)%nat).
  { unfold degs'. rewrite upd_split by auto. rewrite n_coeffs_app, n_coeffs_cons. fold off cnt. lia. }
  assert (Lc : length (control_points s) = n_coeffs (degrees s)) by apply Hw.
  rewrite fl_nth in HB. rewrite Lc in HB.
  assert (HC : forall i, (i < n_coeffs degs')%nat -> exists a j m, (a < off)%nat /\ (j <= q + 1)%nat /\ (m < cnt)%nat /\ i = (a + off * (j + (q + 2) * m))%nat).
  { intros i Hi. exists (i mod off)%nat, (i / off mod (q + 2))%nat, (i / off / (q + 2))%nat.
    split; [apply Nat.mod_upper_bound; lia|]. split; [pose proof (Nat.mod_upper_bound (i / off) (q + 2)); lia|]. split.
    - apply Nat.div_lt_upper_bound; [lia|]. apply Nat.div_lt_upper_bound; [lia|]. rewrite Etot' in Hi. nia.
    - rewrite (Nat.div_mod i off) at 1 by lia. rewrite (Nat.div_mod (i / off) (q + 2)) at 1 by lia. lia. }
  assert (Key : forall i, (i < n_coeffs degs')%nat ->
    Rabs (pr (nth i c v0) - pr (nth i (control_points e0) v0)) <= (gamma (prec F) 3 + 2 * gamma (prec F) 2) * B + underflow F 1).
  { intros i Hi. destruct (HC i Hi) as (a & jj & m & Ha & Hj & Hm & ->). rewrite E1, Ec. cbn [mk control_points].
    rewrite <- v0_r at 1. rewrite (nth_relev_points (o := SOps_rnd rnd) (ov := ovr)) by auto. rewrite (nth_relev_points (ov := ov)) by auto.
    rewrite (pr_relev_r rnd (ovr := ovr) pr pr_add_r pr_scale_r), (pr_relev (ov := ov) pr pr_add pr_scale). rewrite v0_r.
    apply (relev_eb F HF rnd HR q (fun j0 => pr (nth (a + off * (j0 + S q * m)) (control_points s) v0)) B jj); auto.
    intros j0 Hj0. apply HB. rewrite Etot.
    assert (off * ((q + 1) * S m) <= off * ((q + 1) * cnt))%nat by (apply Nat.mul_le_mono_l, Nat.mul_le_mono_l; lia). nia. }
  split; [exact Key|]. intros xs HX HU. rewrite <- (SV xs HX).
  apply (close_values pr pr_add pr_scale); auto; rewrite ?De0; auto.
  unfold degs'. rewrite length_upd. exact HX.
Qed.
End Elevate.
Lemma c91_elevate : forall F rnd d (s : spline (point R d)) k, reasonable F -> nearest_on_grid F rnd ->
  wf s -> (k < length (degrees s))%nat -> machine_points F s ->
  (Z.of_nat (nth k (degrees s) 0%nat + 1) < 2 ^ Z.of_nat (prec F))%Z ->
  (Z.of_nat (n_coeffs (upd_list (degrees s) k (S (nth k (degrees s) 0%nat)))) < 2 ^ 31)%Z ->
  exists e e0, OrderElevate_ieee F rnd (fin_spline s) k = Ok (fin_spline e) /\ OrderElevate s k = Ok e0 /\ wf e /\
    degrees e = upd_list (degrees s) k (S (nth k (degrees s) 0%nat)) /\ degrees e0 = degrees e /\ machine_points F e /\
    forall c B, (c < d)%nat -> coord_bound s c B ->
      let err := (gamma (prec F) 3 + 2 * gamma (prec F) 2) * B + underflow F 1 in
      (forall i, (i < n_coeffs (degrees e))%nat ->
        Rabs (coord d (nth i (control_points e) v0) c - coord d (nth i (control_points e0) v0) c) <= err) /\
      forall xs, length xs = length (degrees s) -> in_unit_box xs ->
        Rabs (coord d (value_at e xs) c - coord d (value_at s xs) c) <= err.
Proof.
  intros F rnd d s k HF HR Hw Hk HM Hq Hsz.
  assert (Z : rnd 0 = 0) by (apply (ProofIEEE.rnd_0 F rnd HR)).
  assert (m0 : machine_point F (v0 (VOps := Vr rnd d))).
  { intros c Hc. change (v0 (VOps := Vr rnd d)) with (pconst d 0). rewrite (coord_const (o := SOps_R)) by auto.
    split; [apply grid_0|rewrite Rabs_R0]. left. apply omega_pos; auto. }
  destruct (elevate_ieee F rnd HF HR (ovr := Vr rnd d) (ow := VOps_point fl d (o := SOps_ieee F rnd)) (fin_point d) (machine_point F) (fun _ => 0)
    (step_point F rnd d HF HR) (fin_point_0 F rnd d) m0 ltac:(intros; lra) ltac:(intros; lra) ltac:(intros; rewrite Rplus_0_r; auto)
    ltac:(intros; rewrite Rmult_0_r; auto) eq_refl s k Hw HM Hk Hq Hsz) as (e & e0 & E & E0 & We & We0 & De & De0 & ME & _).
  exists e, e0. split; [exact E|]. do 5 (split; [assumption|]). intros c B Hc HB. cbv zeta.
  destruct (elevate_ieee F rnd HF HR (ovr := Vr rnd d) (ow := VOps_point fl d (o := SOps_ieee F rnd)) (fin_point d) (machine_point F) (fun q => coord d q c)
    (step_point F rnd d HF HR) (fin_point_0 F rnd d) m0 ltac:(hom) ltac:(hom) (fun a b => coord_add_rnd rnd d a b c Hc) (fun x a => coord_scale_rnd rnd d x a c Hc)
    eq_refl s k Hw HM Hk Hq Hsz) as (e' & e0' & E' & E0' & We' & _ & De' & _ & _ & K).
  rewrite E0 in E0'. injection E0' as <-. rewrite E in E'. injection E' as _ _ _ El.
  apply fin_points_inj in El. specialize (K B (below_coord s c B Hw HB)). unfold value_at in *. rewrite El, De. rewrite De' in K. exact K.
Qed.
Lemma c91_elevate_scalar : forall F rnd (s : spline R) k, reasonable F -> nearest_on_grid F rnd ->
  wf s -> (k < length (degrees s))%nat -> machine_coeffs F s ->
  (Z.of_nat (nth k (degrees s) 0%nat + 1) < 2 ^ Z.of_nat (prec F))%Z ->
  (Z.of_nat (n_coeffs (upd_list (degrees s) k (S (nth k (degrees s) 0%nat)))) < 2 ^ 31)%Z -> forall B, coeff_bound s B ->
  exists e e0, OrderElevate_ieee_s F rnd (fin_spline_s s) k = Ok (fin_spline_s e) /\ OrderElevate s k = Ok e0 /\ wf e /\
    degrees e = upd_list (degrees s) k (S (nth k (degrees s) 0%nat)) /\ degrees e0 = degrees e /\ machine_coeffs F e /\
    let err := (gamma (prec F) 3 + 2 * gamma (prec F) 2) * B + underflow F 1 in
    (forall i, (i < n_coeffs (degrees e))%nat -> Rabs (nth i (control_points e) 0 - nth i (control_points e0) 0) <= err) /\
    forall xs, length xs = length (degrees s) -> in_unit_box xs -> Rabs (value_at e xs - value_at s xs) <= err.
Proof.
  intros F rnd s k HF HR Hw Hk HM Hq Hsz B HB.
  assert (m0 : machine F 0) by (split; [apply grid_0|rewrite Rabs_R0; left; apply omega_pos; auto]).
  destruct (elevate_ieee F rnd HF HR (V := R) (ovr := Vs rnd) (ov := VOps_scalar R (o := SOps_R)) (ow := VOps_scalar fl (o := SOps_ieee F rnd)) Fin (machine F) (fun q => q)
    (step_fl F HF rnd HR) eq_refl m0 (fun _ _ => eq_refl) (fun _ _ => eq_refl) (fun _ _ => eq_refl) (fun _ _ => eq_refl) eq_refl
    s k Hw HM Hk Hq Hsz) as (e & e0 & E & E0 & We & We0 & De & De0 & ME & K).
  exists e, e0. split; [exact E|]. do 5 (split; [assumption|]). exact (K B (below_coeff s B Hw HB)).
Qed.
