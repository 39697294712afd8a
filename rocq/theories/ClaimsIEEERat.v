(** C98: rational evaluation with bounded exponents. *)
From Coq Require Import Arith Lia List ZArith NArith Bool Reals Lra Psatz.
From Verif Require Import Prelude Scalar Spec SpecSpline Sums Order Coord ModelBasis ModelSpline ModelRational SpecRational
  ModelRound SpecRound ModelIEEE SpecIEEE ModelIEEERat SpecIEEERat ProofIndex ProofBasis ProofEval ProofArith ProofSplit ProofParam ProofCasteljau ProofRaw ProofRound ProofRoundEval ProofRoundOps ProofIEEE ProofIEEEEval ClaimsU ClaimsRoundOps ClaimsIEEE.
Import ListNotations.
Local Open Scope R_scope.

(** ** Quotients *)
Lemma inv_close W Wh g : 0 < W -> 0 <= g < 1 -> Rabs (Wh - W) <= g * W ->
  (1 - g) * W <= Wh /\ Rabs (/ Wh - / W) <= (/ (1 - g) - 1) / W.
Proof.
  intros HW Hg H. assert (L : (1 - g) * W <= Wh) by (unfold Rabs in H; destruct (Rcase_abs _); lra). split; auto.
  assert (P : 0 < (1 - g) * W) by (apply Rmult_lt_0_compat; lra).
  replace (/ Wh - / W) with (- (Wh - W) * (/ Wh * / W)) by (field; lra). rewrite Rabs_mult, Rabs_Ropp.
  assert (I : / Wh <= / ((1 - g) * W)) by (apply Rinv_le_contravar; lra). assert (0 < / Wh) by (apply Rinv_0_lt_compat; lra).
  assert (0 < / W) by (apply Rinv_0_lt_compat; lra). assert (0 < / Wh * / W) by (apply Rmult_lt_0_compat; auto).
  rewrite (Rabs_right (/ Wh * / W)) by lra.
  apply Rle_trans with (g * W * (/ ((1 - g) * W) * / W)).
  - apply Rmult_le_compat; [apply Rabs_pos|lra|auto|]. apply Rmult_le_compat_r; lra.
  - right. field. lra.
Qed.
Lemma quotient_core W i A N Nh mag g h : 0 < W -> 1 <= A -> 0 <= g -> 0 <= h -> Rabs (i - / W) <= (A - 1) / W ->
  Rabs N <= mag -> Rabs (Nh - N) <= g * mag + h ->
  Rabs (i * Nh - N / W) <= (A * (1 + g) - 1) * (mag / W) + A * (h / W).
Proof.
  intros HW HA Hg Hh Hi HN HE. assert (IW : 0 < / W) by (apply Rinv_0_lt_compat; auto).
  replace (i * Nh - N / W) with (i * (Nh - N) + (i - / W) * N) by (unfold Rdiv; ring).
  assert (Bi : Rabs i <= A / W).
  { replace i with ((i - / W) + / W) by ring. eapply Rle_trans; [apply Rabs_triang|]. rewrite (Rabs_right (/ W)) by lra. unfold Rdiv in *. lra. }
  eapply Rle_trans; [apply Rabs_triang|]. rewrite !Rabs_mult.
  assert (Rabs i * Rabs (Nh - N) <= A / W * (g * mag + h)) by (apply Rmult_le_compat; auto using Rabs_pos).
  assert (Rabs (i - / W) * Rabs N <= (A - 1) / W * mag) by (apply Rmult_le_compat; auto using Rabs_pos).
  unfold Rdiv in *. lra.
Qed.

Section Rat.
Context (F : format) (rnd : R -> R) (HF : reasonable F) (HR : nearest_on_grid F rnd).
Let u := / 2 ^ prec F.
Lemma u_w : u = powerRZ 2 (- Z.of_nat (prec F)).
Proof. unfold u. rewrite pow_w. pose proof (two_inv (Z.of_nat (prec F))) as H. pose proof (two_pos (Z.of_nat (prec F))). apply (Rmult_eq_reg_l (powerRZ 2 (Z.of_nat (prec F)))); [|lra]. rewrite Rinv_r by lra. lra. Qed.

(** What underflow takes from a weight is one more rounding per round. *)
Lemma underflow_weight n m W : safe_exponent F m -> powerRZ 2 (- m) <= W -> underflow F n <= ((1 + u) ^ (4 * n) - (1 + u) ^ (3 * n)) * W.
Proof using HF.
  intros (M0 & M1 & _) HW. assert (Hu : 0 <= u) by apply unit_pos. unfold underflow. fold u.
  assert (T : tiny F <= u * W).
  { apply Rle_trans with (u * powerRZ 2 (- m)); [|apply Rmult_le_compat_l; auto]. rewrite u_w, <- two_add. apply two_le. lia. }
  assert (0 < tiny F) by apply two_pos. assert (0 < powerRZ 2 (- m)) by apply two_pos.
  assert (B : 1 + INR n * u <= (1 + u) ^ n) by (clear - Hu; induction n; [simpl; lra|rewrite S_INR; cbn [pow]; pose proof (pos_INR n); nra]).
  replace (4 * n)%nat with (n + 3 * n)%nat by lia. rewrite pow_add. set (a := (1 + u) ^ (3 * n)).
  assert (1 <= a) by (apply pow_R1_Rle; lra). pose proof (pos_INR n).
  assert (INR n * tiny F <= INR n * u * W) by (rewrite Rmult_assoc; apply Rmult_le_compat_l; auto).
  assert (INR n * u * W <= ((1 + u) ^ n - 1) * W) by (apply Rmult_le_compat_r; lra).
  replace (((1 + u) ^ n * a - a) * W) with (((1 + u) ^ n - 1) * W * a) by ring. apply Rmult_le_compat_r; lra.
Qed.
Lemma rnd_relative m x : safe_exponent F m -> powerRZ 2 (- m - 1) <= Rabs x -> Rabs (rnd x - x) <= u * Rabs x.
Proof using HF HR.
  intros (M0 & M1 & _) Hx. pose proof (two_pos (- m - 1)). assert (N : x <> 0) by (intros ->; rewrite Rabs_R0 in Hx; lra).
  apply (rnd_error_large F HF rnd HR); auto. destruct (exponent' (prec F) x N) as (_ & E).
  set (e := expo' (prec F) x) in *. destruct (Z_le_gt_dec (emin F) e) as [|G]; auto. exfalso.
  rewrite Rabs_mult, (Rabs_right (powerRZ 2 _)) in E by (left; apply two_pos).
  assert (K : powerRZ 2 (- m - 1) * powerRZ 2 (- e) <= Rabs x * powerRZ 2 (- e)) by (apply Rmult_le_compat_r; [left; apply two_pos|auto]).
  rewrite <- two_add in K. assert (powerRZ 2 (Z.of_nat (prec F)) <= powerRZ 2 (- m - 1 + - e)) by (apply two_le; lia). lra.
Qed.

Lemma bezier_le degs xs f g : length xs = length degs -> in_unit_box xs ->
  (forall i, (i < n_coeffs degs)%nat -> f i <= g i) -> bezier (V := R) degs xs f <= bezier (V := R) degs xs g.
Proof.
  intros HL HX H. assert (D : 0 <= bezier degs xs (fun i => vsub (V := R) (g i) (f i))).
  { rewrite <- dct_bezier by auto. apply dct_nonneg; auto. intros i Hi. cbn. specialize (H i Hi). lra. }
  rewrite bezier_sub in D. cbn [vsub VOps_scalar ssub SOps_R] in D. lra.
Qed.
Lemma bezier_abs degs xs f : length xs = length degs -> in_unit_box xs -> Rabs (bezier (V := R) degs xs f) <= bezier (V := R) degs xs (fun i => Rabs (f i)).
Proof.
  intros HL HX. apply Rabs_le. split; [|apply bezier_le; auto; intros; apply Rle_abs].
  change (Ropp (bezier (V := R) degs xs (fun i => Rabs (f i)))) with (vopp (V := R) (bezier degs xs (fun i => Rabs (f i)))).
  rewrite <- bezier_opp. apply bezier_le; auto. intros i Hi. cbn. unfold Rabs. destruct (Rcase_abs (f i)); lra.
Qed.
Lemma small_gamma n k : INR (16 * (1 + n)) * u <= 1 -> (k <= 4 * n)%nat -> 0 <= gamma (prec F) k <= / 2 /\ u <= / 16.
Proof.
  intros H Hk. assert (Hu : 0 <= u) by apply unit_pos. rewrite mult_INR, plus_INR in H. simpl INR in H. pose proof (pos_INR n).
  assert (HH : 16 * u + 16 * (INR n * u) <= 1) by lra. assert (0 <= INR n * u) by (apply Rmult_le_pos; lra). clear H.
  assert (INR k <= 4 * INR n) by (apply le_INR in Hk; rewrite mult_INR in Hk; simpl INR in Hk; lra).
  assert (INR k * u <= 4 * INR n * u) by (apply Rmult_le_compat_r; lra).
  assert (INR k * / 2 ^ prec F <= 1 / 2) by (fold u; lra).
  destruct (c71_gamma (prec F) k ltac:(auto)) as (G1 & G2). fold u in G2. split; [split; [auto|lra]|lra].
Qed.

Lemma weight_ieee (s : spline R) xs m : wf s -> length xs = length (degrees s) -> in_unit_box xs -> Forall (on_grid F) xs ->
  machine_coeffs F s -> safe_exponent F m -> Forall (fun w => powerRZ 2 (- m) <= w <= powerRZ 2 m) (control_points s) ->
  exists w, Evaluate_ieee_s F rnd (fin_spline_s s) (map Fin xs) = Ok (Fin w) /\ machine F w /\
    powerRZ 2 (- m) <= value_at s xs <= powerRZ 2 m /\
    Rabs (w - value_at s xs) <= gamma (prec F) (4 * list_sum (degrees s)) * value_at s xs.
Proof using HF HR.
  intros Hw HL HX HG HM Hm HW. destruct (c89_evaluate_scalar F rnd s xs HF HR Hw HL HX HG HM) as (w & E & M & B).
  exists w. split; [exact E|]. split; [exact M|].
  assert (HW' : forall i, (i < n_coeffs (degrees s))%nat -> powerRZ 2 (- m) <= nth i (control_points s) 0 <= powerRZ 2 m).
  { intros i Hi. destruct Hw as (_ & _ & _ & Lc). eapply Forall_forall in HW; [exact HW|]. apply nth_In. rewrite Lc. auto. }
  assert (L : powerRZ 2 (- m) <= value_at s xs <= powerRZ 2 m).
  { unfold value_at. split.
    - rewrite <- (bezier_const (V := R) (degrees s) xs (powerRZ 2 (- m)) HL). apply bezier_le; auto. intros i Hi. apply HW'; auto.
    - rewrite <- (bezier_const (V := R) (degrees s) xs (powerRZ 2 m) HL). apply bezier_le; auto. intros i Hi. apply HW'; auto. }
  split; [exact L|]. pose proof (two_pos (- m)).
  assert (Mg : magnitude_s s xs = value_at s xs).
  { unfold magnitude_s, value_at. apply bezier_ext. intros i Hi. apply Rabs_right, Rle_ge. apply Rle_trans with (powerRZ 2 (- m)); [lra|exact (proj1 (HW' i Hi))]. }
  rewrite Mg in B. unfold casteljau_roundings in B. eapply Rle_trans; [exact B|].
  pose proof (underflow_weight (list_sum (degrees s)) m (value_at s xs) Hm (proj1 L)) as U. unfold gamma in *. fold u in U |- *. lra.
Qed.

(** The inverse of the computed weight. *)
Lemma inverse_ieee m n W w : safe_exponent F m -> INR (16 * (1 + n)) * u <= 1 -> powerRZ 2 (- m) <= W <= powerRZ 2 m ->
  Rabs (w - W) <= gamma (prec F) (4 * n) * W ->
  0 < w /\ Rabs (rnd (1 / w)) <= omega F /\
  Rabs (/ w - / W) <= (/ (1 - gamma (prec F) (4 * n)) - 1) / W /\
  Rabs (rnd (1 / w) - / W) <= ((1 + u) / (1 - gamma (prec F) (4 * n)) - 1) / W.
Proof using HF HR.
  intros Hm Hn HW H. destruct (small_gamma n (4 * n) Hn ltac:(lia)) as ((G1 & G2) & G3). assert (Hu : 0 <= u) by apply unit_pos.
  set (g := gamma (prec F) (4 * n)) in *. pose proof (two_pos (- m)). assert (PW : 0 < W) by lra.
  destruct (inv_close W w g PW ltac:(lra) H) as (L & I).
  assert (Pw : 0 < w) by nra. assert (Uw : w <= 3 / 2 * W) by (unfold Rabs in H; destruct (Rcase_abs _); nra).
  split; [auto|]. replace (1 / w) with (/ w) by (unfold Rdiv; ring).
  assert (E2 : powerRZ 2 (m + 1) = 2 * powerRZ 2 m) by (rewrite two_add; simpl; ring).
  assert (E3 : powerRZ 2 (- m - 1) = / 2 * powerRZ 2 (- m)) by (unfold Z.sub; rewrite two_add; simpl; lra).
  assert (EM : powerRZ 2 m * powerRZ 2 (- m) = 1) by (rewrite <- two_add, Z.add_opp_diag_r; reflexivity).
  assert (I0 : 0 < / w) by (apply Rinv_0_lt_compat; auto).
  assert (Iw : w * / w = 1) by (apply Rinv_r; lra). pose proof (two_pos m).
  assert (Lo : powerRZ 2 (- m - 1) <= / w).
  { rewrite E3. apply (Rmult_le_reg_l w); auto. rewrite Iw. nra. }
  assert (Up : / w <= powerRZ 2 (m + 1)).
  { rewrite E2. apply (Rmult_le_reg_l w); auto. rewrite Iw. nra. }
  assert (Er : Rabs (rnd (/ w) - / w) <= u * / w).
  { pose proof (rnd_relative m (/ w) Hm) as Q. rewrite (Rabs_right (/ w)) in Q by lra. auto. }
  split; [|split; [exact I|]].
  - destruct Hm as (M0 & M1 & M2). apply Rabs_le. assert (Hom : powerRZ 2 (m + 1) <= omega F).
    { rewrite (omega_eq F). apply Rle_trans with (powerRZ 2 (emax F)); [apply two_le; lia|].
      rewrite <- (Rmult_1_l (powerRZ 2 (emax F))) at 1. apply Rmult_le_compat_r; [left; apply two_pos|]. apply IZR_le.
      pose proof (P_half F HF). assert (0 < 2 ^ Z.of_nat (prec F - 1))%Z by (apply Z.pow_pos_nonneg; lia). lia. }
    pose proof (omega_pos F HF). split.
    + rewrite <- (rnd_id F rnd HR (- omega F)) by (apply grid_opp, grid_omega; auto). apply (rnd_mono F rnd HR). lra.
    + rewrite <- (rnd_id F rnd HR (omega F)) by (apply grid_omega; auto). apply (rnd_mono F rnd HR). lra.
  - replace (rnd (/ w) - / W) with ((rnd (/ w) - / w) + (/ w - / W)) by ring. eapply Rle_trans; [apply Rabs_triang|].
    assert (Q : / w <= / (1 - g) / W).
    { unfold Rdiv. rewrite <- Rinv_mult by lra. apply Rinv_le_contravar; [nra|exact L]. }
    assert (u * / w <= u * (/ (1 - g) / W)) by (apply Rmult_le_compat_l; auto). unfold Rdiv in *. lra.
Qed.
Lemma rnd_below x : Rabs x <= omega F -> Rabs (rnd x) <= omega F.
Proof using HF HR. intros H. rewrite <- (Rmult_1_l x). apply (scaled_bound F HF rnd HR); [lra|auto]. Qed.

(** The product with the computed numerator. *)
Lemma product_ieee m n k W i N Nh mag B : safe_exponent F m -> INR (16 * (1 + n)) * u <= 1 -> powerRZ 2 (- m) <= W -> (k <= 1)%nat ->
  let A := (1 + u) ^ k / (1 - gamma (prec F) (4 * n)) in
  Rabs (i - / W) <= (A - 1) / W -> Rabs N <= mag -> Rabs (Nh - N) <= gamma (prec F) (3 * n) * mag + underflow F n ->
  mag <= B * W -> 4 * (1 + B) <= omega F ->
  Rabs (i * Nh) <= omega F /\
  Rabs (rnd (i * Nh) - N / W) <= quotient_factor F n (S k) * (mag / W) + 3 * (underflow F n / W) + tiny F.
Proof using HF HR.
  intros Hm Hn HW Hk A Hi HN HE HB Ho. destruct (small_gamma n (4 * n) Hn ltac:(lia)) as ((G1 & G2) & G3).
  destruct (small_gamma n (3 * n) Hn ltac:(lia)) as ((G4 & G5) & _). assert (Hu : 0 <= u) by apply unit_pos.
  unfold quotient_factor. fold u. set (g := gamma (prec F) (4 * n)) in *. set (g3 := gamma (prec F) (3 * n)) in *.
  pose proof (two_pos (- m)). assert (PW : 0 < W) by lra. assert (T : 0 < tiny F) by apply two_pos.
  assert (U0 : 0 <= underflow F n).
  { unfold underflow. apply Rmult_le_pos; [apply Rmult_le_pos; [apply pos_INR|lra]|]. apply pow_le. fold u. lra. }
  assert (U : underflow F n / W <= / 2).
  { pose proof (underflow_weight n m W Hm HW) as Q. apply (Rmult_le_reg_r W); auto. unfold Rdiv. rewrite Rmult_assoc, Rinv_l, Rmult_1_r by lra.
    eapply Rle_trans; [exact Q|]. apply Rmult_le_compat_r; [lra|]. unfold g, g3, gamma in G1, G2, G4, G5. fold u in G1, G2, G4, G5. lra. }
  assert (Uk : 1 <= (1 + u) ^ k <= 1 + u) by (destruct k as [|[|k]]; [simpl; lra|simpl; lra|lia]).
  assert (A1 : (1 + u) ^ k <= A <= 2 * (1 + u) ^ k).
  { unfold A, Rdiv. assert (Ig : 1 <= / (1 - g) <= 2); [|split; [rewrite <- (Rmult_1_r ((1 + u) ^ k)) at 1; apply Rmult_le_compat_l; lra|rewrite (Rmult_comm 2); apply Rmult_le_compat_l; lra]]. split.
    - apply Rle_trans with (/ 1); [lra|]. apply Rinv_le_contravar; lra.
    - apply Rle_trans with (/ (/ 2)); [apply Rinv_le_contravar; lra|lra]. }
  pose proof (quotient_core W i A N Nh mag g3 (underflow F n) PW ltac:(lra) G4 U0 Hi HN HE) as Q.
  assert (Mu : 0 <= mag / W <= B).
  { split; [apply Rmult_le_pos; [eapply Rle_trans; [apply Rabs_pos|exact HN]|left; apply Rinv_0_lt_compat; auto]|].
    apply (Rmult_le_reg_r W); auto. unfold Rdiv. rewrite Rmult_assoc, Rinv_l by lra. lra. }
  assert (NW : Rabs (N / W) <= mag / W).
  { unfold Rdiv. rewrite Rabs_mult, (Rabs_right (/ W)) by (left; apply Rinv_0_lt_compat; auto). apply Rmult_le_compat_r; [left; apply Rinv_0_lt_compat; auto|auto]. }
  set (h := underflow F n / W) in *. assert (h0 : 0 <= h) by (apply Rmult_le_pos; [auto|left; apply Rinv_0_lt_compat; auto]).
  set (mu := mag / W) in *.
  assert (P : Rabs (i * Nh) <= A * (1 + g3) * mu + A * h).
  { replace (i * Nh) with ((i * Nh - N / W) + N / W) by ring. eapply Rle_trans; [apply Rabs_triang|]. lra. }
  assert (A2 : A <= 17 / 8) by lra. assert (A3 : A * (1 + g3) <= 4) by nra. assert (A4 : A * h <= 4) by nra.
  assert (A5 : A * (1 + g3) * mu <= 4 * B) by (apply Rmult_le_compat; nra).
  assert (O : Rabs (i * Nh) <= omega F) by lra. split; [exact O|].
  pose proof (rnd_error F HF rnd HR (i * Nh)) as Re. fold u in Re.
  replace (rnd (i * Nh) - N / W) with ((rnd (i * Nh) - i * Nh) + (i * Nh - N / W)) by ring.
  eapply Rle_trans; [apply Rabs_triang|].
  assert (X : u * Rabs (i * Nh) <= u * (A * (1 + g3) * mu + A * h)) by (apply Rmult_le_compat_l; auto).
  assert (K : (1 + u) ^ (3 * n + S k) / (1 - g) = (1 + u) * (A * (1 + g3))).
  { unfold A, g3, gamma. fold u. rewrite pow_add. cbn [pow]. unfold Rdiv. ring. }
  rewrite K. assert (Y : (1 + u) * A * h <= 3 * h) by (apply Rmult_le_compat_r; nra).
  lra.
Qed.
End Rat.

Lemma fin_scale F rnd d i (q : point R d) : (forall k, (k < d)%nat -> Rabs (rnd (i * coord d q k)) <= omega F) ->
  vscale (VOps := VOps_point fl d (o := SOps_ieee F rnd)) (Fin i) (fin_point d q) =
  fin_point d (vscale (VOps := VOps_point R d (o := SOps_rnd rnd)) i q).
Proof.
  induction d as [|d IH]; [reflexivity|]. intros H. destruct q as (a & q).
  cbn [VOps_point vscale pmap fin_point fst snd] in *. f_equal.
  - refine (deliver_ok F rnd (a * i) _). rewrite Rmult_comm. apply (H 0%nat). lia.
  - apply IH. intros k Hk. apply (H (S k)). lia.
Qed.

Lemma c98_evaluate : forall F rnd d (r : rspline R (point R d)) xs m B, reasonable F -> nearest_on_grid F rnd ->
  rwf r -> length xs = length (rdegrees r) -> in_unit_box xs -> Forall (on_grid F) xs ->
  machine_points F (weighted_spline r) -> machine_coeffs F (weight_function r) -> safe_exponent F m -> safe_weights m r ->
  INR (16 * (1 + list_sum (rdegrees r))) * / 2 ^ prec F <= 1 -> 4 * (1 + B) <= omega F ->
  (forall i k, (i < n_coeffs (rdegrees r))%nat -> (k < d)%nat ->
     Rabs (coord d (nth i (control_points (weighted_spline r)) v0) k) <= B * nth i (control_points (weight_function r)) 0) ->
  exists e, R_Evaluate_ieee F rnd (fin_rspline r) (map Fin xs) = Ok (fin_point d e) /\ forall k, (k < d)%nat ->
    machine F (coord d e k) /\
    Rabs (coord d e k - coord d (rvalue r xs) k) <=
      quotient_factor F (list_sum (rdegrees r)) 2 * (magnitude (weighted_spline r) xs k / value_at (weight_function r) xs) +
      3 * (underflow F (list_sum (rdegrees r)) / value_at (weight_function r) xs) + tiny F.
Proof.
  intros F rnd d r xs m B HF HR Hr HL HX HG HN HM Hm HW Hn Ho HB. pose proof Hr as (Hw1 & Hw2 & Hdeg). unfold rdegrees in *.
  destruct (weight_ieee F rnd HF HR (weight_function r) xs m) as (w & Ew & Mw & LW & Bw); auto; [rewrite Hdeg; auto|].
  rewrite Hdeg in Bw. set (n := list_sum (degrees (weighted_spline r))) in *. set (W := value_at (weight_function r) xs) in *.
  destruct (inverse_ieee F rnd HF HR m n W w Hm Hn LW Bw) as (Pw & Oi & _ & Ei).
  destruct (c89_evaluate F rnd d (weighted_spline r) xs) as (q & Eq & Hq); auto. pose proof (two_pos (- m)).
  assert (K : forall k, (k < d)%nat -> Rabs (rnd (1 / w) * coord d q k) <= omega F /\
    Rabs (rnd (rnd (1 / w) * coord d q k) - coord d (rvalue r xs) k) <=
      quotient_factor F n 2 * (magnitude (weighted_spline r) xs k / W) + 3 * (underflow F n / W) + tiny F).
  { intros k Hk. destruct (Hq k Hk) as (_ & Bq).
    replace (coord d (rvalue r xs) k) with (coord d (value_at (weighted_spline r) xs) k / W).
    2:{ unfold rvalue. rewrite coord_scale. fold W. cbn. field. lra. }
    apply (product_ieee F rnd HF HR m n 1 W (rnd (1 / w)) _ _ _ B); auto; try lra.
    - rewrite coord_value. unfold magnitude. apply bezier_abs; auto.
    - pose proof (c73_magnitude d r xs k B Hr HL HX ltac:(fold W; lra) (fun i Hi => HB i k Hi Hk)) as Q. fold W in Q.
      apply (Rmult_le_reg_r (/ W)); [apply Rinv_0_lt_compat; lra|]. rewrite Rmult_assoc, Rinv_r, Rmult_1_r by lra. exact Q. }
  exists (vscale (VOps := VOps_point R d (o := SOps_rnd rnd)) (rnd (1 / w)) q). split.
  - unfold R_Evaluate_ieee, R_Evaluate. cbn [weighted_spline weight_function fin_rspline]. unfold Evaluate_ieee in Eq. unfold Evaluate_ieee_s in Ew.
    rewrite Eq. cbn [bind]. rewrite Ew. cbn [bind]. unfold vdiv, divS. cbn [seqb s0 SOps_ieee]. destruct (Req_EM_T w 0) as [Z|_]; [lra|]. cbn [bind].
    f_equal. cbn [sdiv s1 SOps_ieee fl_lift2]. destruct (Req_EM_T w 0) as [Z|_]; [lra|]. rewrite deliver_ok by exact Oi.
    apply fin_scale. intros k Hk. apply (rnd_below F rnd HF HR). apply K; auto.
  - intros k Hk. rewrite coord_scale_rnd by auto. destruct (K k Hk) as (K1 & K2). split; [|exact K2].
    split; [apply HR|apply (rnd_below F rnd HF HR); auto].
Qed.
Lemma c98_evaluate_scalar : forall F rnd (r : rspline R R) xs m B, reasonable F -> nearest_on_grid F rnd ->
  rwf r -> length xs = length (rdegrees r) -> in_unit_box xs -> Forall (on_grid F) xs ->
  machine_coeffs F (weighted_spline r) -> machine_coeffs F (weight_function r) -> safe_exponent F m -> safe_weights m r ->
  INR (16 * (1 + list_sum (rdegrees r))) * / 2 ^ prec F <= 1 -> 4 * (1 + B) <= omega F ->
  (forall i, (i < n_coeffs (rdegrees r))%nat ->
     Rabs (nth i (control_points (weighted_spline r)) 0) <= B * nth i (control_points (weight_function r)) 0) ->
  exists e, R_Evaluate_ieee_s F rnd (fin_rspline_s r) (map Fin xs) = Ok (Fin e) /\ machine F e /\
    Rabs (e - rvalue r xs) <=
      quotient_factor F (list_sum (rdegrees r)) 1 * (magnitude_s (weighted_spline r) xs / value_at (weight_function r) xs) +
      3 * (underflow F (list_sum (rdegrees r)) / value_at (weight_function r) xs) + tiny F.
Proof.
  intros F rnd r xs m B HF HR Hr HL HX HG HN HM Hm HW Hn Ho HB. pose proof Hr as (Hw1 & Hw2 & Hdeg). unfold rdegrees in *.
  destruct (weight_ieee F rnd HF HR (weight_function r) xs m) as (w & Ew & Mw & LW & Bw); auto; [rewrite Hdeg; auto|].
  rewrite Hdeg in Bw. set (n := list_sum (degrees (weighted_spline r))) in *. set (W := value_at (weight_function r) xs) in *.
  destruct (inverse_ieee F rnd HF HR m n W w Hm Hn LW Bw) as (Pw & _ & Ei & _).
  destruct (c89_evaluate_scalar F rnd (weighted_spline r) xs) as (q & Eq & _ & Bq); auto. pose proof (two_pos (- m)).
  assert (Mag : magnitude_s (weighted_spline r) xs <= B * W).
  { unfold W, magnitude_s, value_at. rewrite Hdeg.
    eapply Rle_trans; [apply (bezier_le _ _ _ (fun i => vscale (V := R) B (nth i (control_points (weight_function r)) v0)) HL HX); exact HB|].
    rewrite bezier_scale. right. reflexivity. }
  destruct (product_ieee F rnd HF HR m n 0 W (/ w) (value_at (weighted_spline r) xs) q (magnitude_s (weighted_spline r) xs) B) as (K1 & K2); auto; try lra.
  { apply bezier_abs; auto. }
  exists (rnd (/ w * q)). split; [|split].
  - unfold R_Evaluate_ieee_s. cbn [weighted_spline weight_function fin_rspline_s]. rewrite Eq. cbn [bind]. rewrite Ew. cbn [bind].
    unfold divS. cbn [seqb s0 SOps_ieee]. destruct (Req_EM_T w 0) as [Z|_]; [lra|]. cbn [bind].
    f_equal. cbn [sdiv SOps_ieee fl_lift2]. destruct (Req_EM_T w 0) as [Z|_]; [lra|]. unfold Rdiv. rewrite (Rmult_comm q). apply deliver_ok.
    apply (rnd_below F rnd HF HR). auto.
  - split; [apply HR|apply (rnd_below F rnd HF HR); auto].
  - replace (rvalue r xs) with (value_at (weighted_spline r) xs / W); [exact K2|]. unfold rvalue. fold W. cbn. field. lra.
Qed.
(** The relative part in terms of the degrees. *)
Lemma c98_factor : forall F n k, INR (16 * (1 + n)) * / 2 ^ prec F <= 1 -> (k <= 2)%nat ->
  0 <= quotient_factor F n k <= (28 * INR n + 8) * / 2 ^ prec F.
Proof.
  intros F n k H Hk. destruct (small_gamma F n (4 * n) H ltac:(lia)) as ((G1 & G2) & G3). assert (Hu : 0 <= / 2 ^ prec F) by apply unit_pos.
  unfold quotient_factor. set (u := / 2 ^ prec F) in *.
  assert (HH : 16 * u + 16 * (INR n * u) <= 1) by (rewrite mult_INR, plus_INR in H; simpl INR in H; lra). pose proof (pos_INR n).
  assert (0 <= INR n * u) by (apply Rmult_le_pos; auto).
  destruct (c71_gamma (prec F) (4 * n)) as (_ & G4); [fold u; rewrite mult_INR; simpl INR; lra|]. fold u in G4.
  destruct (c71_gamma (prec F) (3 * n + 2)) as (G5 & G6); [fold u; rewrite plus_INR, mult_INR; simpl INR; lra|]. fold u in G6.
  rewrite mult_INR in G4. rewrite plus_INR, mult_INR in G6. simpl INR in G4, G6. set (g := gamma (prec F) (4 * n)) in *.
  assert (P : 1 <= (1 + u) ^ (3 * n + k) <= 1 + gamma (prec F) (3 * n + 2)).
  { split; [apply pow_R1_Rle; lra|]. unfold gamma. fold u. replace (1 + ((1 + u) ^ (3 * n + 2) - 1)) with ((1 + u) ^ (3 * n + 2)) by ring. apply Rle_pow; [lra|lia]. }
  assert (I : 1 <= / (1 - g) <= 1 + 2 * g).
  { split; [rewrite <- Rinv_1 at 1; apply Rinv_le_contravar; lra|]. apply (Rmult_le_reg_r (1 - g)); [lra|]. rewrite Rinv_l by lra. nra. }
  unfold Rdiv. set (a := (1 + u) ^ (3 * n + k)) in *. set (b := / (1 - g)) in *. split; [nra|].
  apply Rle_trans with ((1 + (6 * (INR n * u) + 4 * u)) * (1 + 16 * (INR n * u)) - 1); [|nra].
  apply Rplus_le_compat_r. apply Rmult_le_compat; lra.
Qed.

Lemma c98_corners_scalar : forall F rnd (s : spline R) xs, reasonable F -> nearest_on_grid F rnd ->
  wf s -> length xs = length (degrees s) -> Forall (fun x => x = 0 \/ x = 1) xs -> machine_coeffs F s ->
  Evaluate_ieee_s F rnd (fin_spline_s s) (map Fin xs) = Ok (Fin (value_at s xs)).
Proof.
  intros F rnd s xs HF HR Hw HL HC HM.
  assert (HX : in_unit_box xs) by (eapply Forall_impl; [|exact HC]; cbv beta; intros; lra).
  assert (HG : Forall (on_grid F) xs).
  { eapply Forall_impl; [|exact HC]. cbv beta. intros a [->| ->]; [apply grid_0|apply grid_1; auto]. }
  destruct (Evaluate_lift F rnd (ov := Vs rnd) (ow := VOps_scalar fl (o := SOps_ieee F rnd)) Fin (machine F)
    (step_fl F HF rnd HR) eq_refl s (fin_spline_s s) Hw HM eq_refl eq_refl eq_refl eq_refl xs HL HG HX) as (e & E1 & E2 & _).
  unfold Evaluate_ieee_s. rewrite E2. rewrite Evaluate_dct in E1 by auto. injection E1 as <-. do 2 f_equal.
  unfold value_at. rewrite <- dct_bezier by auto.
  apply (dct_corner_ieee F); auto. intros i. destruct (lt_dec i (length (control_points s))) as [Hi|Hi].
  - eapply Forall_forall in HM; [|apply nth_In; exact Hi]. apply HM; auto.
  - rewrite nth_overflow by lia. apply grid_0.
Qed.

(** Equal weights, a corner, and still no finite result: the inverse of the smallest weight overflows. *)
Lemma tiny_machine F : reasonable F -> machine F (tiny F).
Proof.
  intros HF. assert (0 < tiny F) by apply two_pos. split; [apply grid_w; auto; lia|]. rewrite Rabs_right by lra.
  apply Rle_trans with 1; [|apply omega_1; auto]. change 1 with (powerRZ 2 0). apply two_le. destruct HF as (? & ? & ?). lia.
Qed.
Definition tiny_rational (F : format) : rspline R (point R 1) :=
  mkR (mkSpline [1%nat] 2 [1%nat] [(tiny F, tt); (tiny F, tt)]) (mkSpline [1%nat] 2 [1%nat] [tiny F; tiny F]).
Lemma c98_small_weights : forall F rnd, reasonable F -> nearest_on_grid F rnd -> (emax F + Z.of_nat (prec F) <= - emin F)%Z ->
  exists r : rspline R (point R 1), rwf r /\ rdegrees r = [1%nat] /\
    machine_points F (weighted_spline r) /\ machine_coeffs F (weight_function r) /\
    Forall (fun w => 0 < w) (control_points (weight_function r)) /\ (forall x, rvalue r [x] = (1, tt)) /\
    R_Evaluate_ieee F rnd (fin_rspline r) [Fin 0] = Ok (Exc, tt).
Proof.
  intros F rnd HF HR He. exists (tiny_rational F). assert (T : 0 < tiny F) by apply two_pos. pose proof (tiny_machine F HF) as MT.
  assert (Hw1 : wf (weighted_spline (tiny_rational F))) by (repeat split; discriminate).
  assert (Hw2 : wf (weight_function (tiny_rational F))) by (repeat split; discriminate).
  assert (M1 : machine_points F (weighted_spline (tiny_rational F))).
  { assert (Q : machine_point F (d := 1) (tiny F, tt)) by (intros [|k] Hk; [exact MT|lia]). constructor; [exact Q|]. constructor; [exact Q|constructor]. }
  assert (M2 : machine_coeffs F (weight_function (tiny_rational F))) by (constructor; [exact MT|]; constructor; [exact MT|constructor]).
  assert (V1 : forall x, value_at (weighted_spline (tiny_rational F)) [x] = (tiny F, tt)).
  { intros x. refine (eq_trans _ (bezier_const [1%nat] [x] ((tiny F, tt) : point R 1) eq_refl)).
    unfold value_at. apply bezier_ext. intros [|[|i]] Hi; auto. cbn in Hi. lia. }
  assert (V2 : forall x, value_at (weight_function (tiny_rational F)) [x] = tiny F).
  { intros x. refine (eq_trans _ (bezier_const [1%nat] [x] (tiny F) eq_refl)).
    unfold value_at. apply bezier_ext. intros [|[|i]] Hi; auto. cbn in Hi. lia. }
  split; [exact (conj Hw1 (conj Hw2 eq_refl))|]. split; [reflexivity|]. split; [auto|]. split; [auto|]. split; [repeat constructor; auto|]. split.
  { intros x. unfold rvalue. rewrite V1, V2. cbn. f_equal. field. lra. }
  unfold R_Evaluate_ieee, R_Evaluate. cbn [weighted_spline weight_function fin_rspline].
  assert (C : Forall (fun x => x = 0 \/ x = 1) [0]) by (repeat constructor; auto).
  pose proof (c89_corners F rnd 1 (weighted_spline (tiny_rational F)) [0] HF HR Hw1 eq_refl C M1) as E1.
  pose proof (c98_corners_scalar F rnd (weight_function (tiny_rational F)) [0] HF HR Hw2 eq_refl C M2) as E2.
  unfold Evaluate_ieee in E1. unfold Evaluate_ieee_s in E2. cbn [map] in E1, E2. rewrite E1. cbn [bind]. rewrite E2. cbn [bind]. rewrite V1, V2.
  unfold vdiv, divS. cbn [seqb s0 SOps_ieee]. destruct (Req_EM_T (tiny F) 0) as [Z|_]; [lra|]. cbn [bind]. f_equal.
  assert (E : sdiv (SOps := SOps_ieee F rnd) (s1 (SOps := SOps_ieee F rnd)) (Fin (tiny F)) = Exc).
  { cbn [sdiv s1 SOps_ieee fl_lift2]. destruct (Req_EM_T (tiny F) 0) as [Z|_]; [lra|].
    replace (1 / tiny F) with (powerRZ 2 (- emin F)).
    2:{ unfold tiny. pose proof (two_inv (emin F)) as I. pose proof (two_pos (emin F)).
        apply (Rmult_eq_reg_l (powerRZ 2 (emin F))); [|lra]. field_simplify; [|lra]. lra. }
    unfold deliver. rewrite (rnd_id F rnd HR) by (apply grid_w; auto; destruct HF as (? & ? & ?); lia).
    destruct (Rle_dec _ _) as [L|]; auto. exfalso. rewrite Rabs_right in L by (left; apply two_pos). rewrite (omega_top F) in L.
    assert (powerRZ 2 (emax F + Z.of_nat (prec F)) <= powerRZ 2 (- emin F)) by (apply two_le; lia). pose proof (two_pos (emax F)). lra. }
  rewrite E. reflexivity.
Qed.
(** In the middle the computed weight is zero if half the smallest number is rounded to zero, as ties-to-even does. *)
Lemma c98_zero_weight : forall F rnd, reasonable F -> nearest_on_grid F rnd -> rnd (tiny F / 2) = 0 ->
  exists r : rspline R (point R 1), rwf r /\ rdegrees r = [1%nat] /\
    machine_points F (weighted_spline r) /\ machine_coeffs F (weight_function r) /\
    Forall (fun w => 0 < w) (control_points (weight_function r)) /\ (forall x, rvalue r [x] = (1, tt)) /\
    R_Evaluate_ieee F rnd (fin_rspline r) [Fin (/ 2)] = NonFinite.
Proof.
  intros F rnd HF HR H0. exists (tiny_rational F). assert (T : 0 < tiny F) by apply two_pos. pose proof (tiny_machine F HF) as MT.
  assert (Hw1 : wf (weighted_spline (tiny_rational F))) by (repeat split; discriminate).
  assert (Hw2 : wf (weight_function (tiny_rational F))) by (repeat split; discriminate).
  assert (M1 : machine_points F (weighted_spline (tiny_rational F))).
  { assert (Q : machine_point F (d := 1) (tiny F, tt)) by (intros [|k] Hk; [exact MT|lia]). constructor; [exact Q|]. constructor; [exact Q|constructor]. }
  assert (M2 : machine_coeffs F (weight_function (tiny_rational F))) by (constructor; [exact MT|]; constructor; [exact MT|constructor]).
  assert (V1 : forall x, value_at (weighted_spline (tiny_rational F)) [x] = (tiny F, tt)).
  { intros x. refine (eq_trans _ (bezier_const [1%nat] [x] ((tiny F, tt) : point R 1) eq_refl)).
    unfold value_at. apply bezier_ext. intros [|[|i]] Hi; auto. cbn in Hi. lia. }
  assert (V2 : forall x, value_at (weight_function (tiny_rational F)) [x] = tiny F).
  { intros x. refine (eq_trans _ (bezier_const [1%nat] [x] (tiny F) eq_refl)).
    unfold value_at. apply bezier_ext. intros [|[|i]] Hi; auto. cbn in Hi. lia. }
  split; [exact (conj Hw1 (conj Hw2 eq_refl))|]. split; [reflexivity|]. split; [auto|]. split; [auto|]. split; [repeat constructor; auto|]. split.
  { intros x. unfold rvalue. rewrite V1, V2. cbn. f_equal. field. lra. }
  assert (Gh : on_grid F (/ 2)).
  { replace (/ 2) with (powerRZ 2 (-1)) by (simpl; lra). apply grid_w; auto. destruct HF as (? & ? & ?). lia. }
  assert (HX : in_unit_box [/ 2]) by (repeat constructor; lra).
  destruct (Evaluate_lift F rnd (ov := Vr rnd 1) (ow := VOps_point fl 1 (o := SOps_ieee F rnd)) (fin_point 1) (machine_point F)
    (step_point F rnd 1 HF HR) (fin_point_0 F rnd 1) _ (fin_spline (weighted_spline (tiny_rational F))) Hw1 M1 eq_refl eq_refl eq_refl eq_refl [/ 2] eq_refl
    (Forall_cons _ Gh (Forall_nil _)) HX) as (e & _ & E & _).
  destruct (Evaluate_lift F rnd (ov := Vs rnd) (ow := VOps_scalar fl (o := SOps_ieee F rnd)) Fin (machine F)
    (step_fl F HF rnd HR) eq_refl _ (fin_spline_s (weight_function (tiny_rational F))) Hw2 M2 eq_refl eq_refl eq_refl eq_refl [/ 2] eq_refl
    (Forall_cons _ Gh (Forall_nil _)) HX) as (w & W1 & W2 & _).
  unfold R_Evaluate_ieee, R_Evaluate. cbn [weighted_spline weight_function fin_rspline]. cbn [map] in E, W2.
  rewrite E. cbn [bind]. rewrite W2. cbn [bind].
  assert (Z : w = 0).
  { rewrite Evaluate_dct in W1 by auto. injection W1 as <-.
    cbn [tiny_rational weight_function degrees control_points dct dc vadd vscale VOps_scalar nth Nat.add Nat.mul sadd smul ssub s1 SOps_rnd].
    replace (1 - / 2) with (/ 2) by lra. rewrite (rnd_id F rnd HR (/ 2) Gh). replace (/ 2 * tiny F) with (tiny F / 2) by lra.
    rewrite H0, Rplus_0_r. apply (rnd_id F rnd HR), grid_0. }
  subst w. unfold vdiv, divS. cbn [seqb s0 SOps_ieee]. destruct (Req_EM_T 0 0); [reflexivity|lra].
Qed.
Lemma c98_tie_exists : forall F, reasonable F -> exists rnd, nearest_on_grid F rnd /\ rnd (tiny F / 2) = 0.
Proof.
  intros F HF. assert (T : 0 < tiny F) by apply two_pos.
  exists (fun x => if Req_EM_T x (tiny F / 2) then 0 else grid_round F x). split.
  2:{ destruct (Req_EM_T _ _); lra. }
  intros x. destruct (Req_EM_T x (tiny F / 2)) as [->|N]; [|apply nearest_grid_round; auto]. split; [apply grid_0|].
  intros y (m & e & Hm & He & E). rewrite (shift_down m e (emin F) He) in E. set (k := (m * _)%Z) in E. clearbody k. subst y.
  fold (tiny F). rewrite Rminus_0_l, Rabs_Ropp, Rabs_right by lra.
  destruct (Z_le_gt_dec k 0) as [K|K].
  - assert (IZR k <= 0) by (apply IZR_le; lia). rewrite Rabs_left1 by nra. nra.
  - assert (1 <= IZR k) by (apply IZR_le; lia). rewrite Rabs_right by nra. nra.
Qed.
Lemma c98_formats : safe_exponent binary64 970 /\ safe_exponent binary32 103 /\
  (emax binary64 + Z.of_nat (prec binary64) <= - emin binary64)%Z /\ (emax binary32 + Z.of_nat (prec binary32) <= - emin binary32)%Z.
Proof. unfold safe_exponent; simpl; lia. Qed.
