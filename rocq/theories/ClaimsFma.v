(** C101: evaluation with contracted multiplications and additions. *)
From Coq Require Import Arith Lia List ZArith NArith Bool Reals Lra Psatz.
From Verif Require Import Prelude Scalar Spec SpecSpline Sums Coord ModelBasis ModelSpline ModelRational SpecRational
  ModelRound SpecRound ProofIndex ProofBasis ProofEval ProofParam ProofCasteljau ProofRound ProofRoundEval ClaimsU ModelFma ProofFma.
Import ListNotations.
Local Open Scope R_scope.

Notation Vt rnd d := (VOps_point term d (o := SOps_term rnd)).
Notation Vts rnd := (VOps_scalar term (o := SOps_term rnd)).

Lemma fma_ok_inj {A} (a b : A) : Ok a = Ok b -> a = b.
Proof. congruence. Qed.

Section WithRnd.
Context (p : nat) (rnd : R -> R) (Hp : (0 < p)%nat) (HR : nearest p rnd).
Let u := / 2 ^ p.
Let Hu := unit_pos p.
Let Hu1 := unit_lt_1 p Hp.
Let Hr := nearest_error p rnd Hp HR.

Lemma eval_fma d (s : spline (point R d)) xs t : wf s -> length xs = length (degrees s) -> in_unit_box xs ->
  Evaluate (o := SOps_term rnd) (ov := Vt rnd d) (num_spline s) (map Num xs) = Ok t -> forall k, (k < d)%nat ->
    EM rnd ((1 + u) ^ casteljau_roundings (degrees s)) (coord (o := SOps_term rnd) d t k) (coord d (value_at s xs) k) (magnitude s xs k).
Proof using Hp HR.
  intros Hw HL HX E k Hk. rewrite Evaluate_dct in E by (rewrite ?map_length; auto using wf_num). apply fma_ok_inj in E. subst t.
  rewrite coord_dct_t by auto. rewrite coord_value. unfold magnitude. cbn [num_spline degrees].
  rewrite <- !dct_bezier by auto. apply (dct_fma rnd u Hu Hr) with (k := 0%nat); auto.
  intros i Hi. intros v Hv. pose proof (coord_cp rnd d s i k Hk) as EC. rewrite EC in Hv. apply num_mean in Hv. subst v. apply Er_exact.
Qed.
Lemma eval_fma_s (s : spline R) xs t : wf s -> length xs = length (degrees s) -> in_unit_box xs ->
  Evaluate (o := SOps_term rnd) (ov := Vts rnd) (num_spline_s s) (map Num xs) = Ok t ->
    EM rnd ((1 + u) ^ casteljau_roundings (degrees s)) t (value_at s xs) (magnitude_s s xs) /\
    (Forall (fun c => 0 < c) (control_points s) -> SM rnd u (casteljau_roundings (degrees s)) t (value_at s xs)).
Proof using Hp HR.
  intros Hw HL HX E. rewrite Evaluate_dct in E by (rewrite ?map_length; auto using wf_num_s). apply fma_ok_inj in E. subst t.
  cbn [num_spline_s degrees control_points v0 VOps_scalar s0 SOps_term].
  change (Vts rnd) with (VOps_sw rnd false). unfold magnitude_s, value_at. rewrite <- !dct_bezier by auto.
  assert (EN : forall i v, means rnd (nth i (map Num (control_points s)) (Num 0)) v -> v = nth i (control_points s) 0).
  { intros i v. rewrite (map_nth Num). apply num_mean. }
  split.
  - apply (dct_fma rnd u Hu Hr) with (k := 0%nat); auto.
    intros i Hi. intros v Hv. apply EN in Hv. subst v. apply Er_exact.
  - intros HC. apply (dct_fma_sr rnd u Hu Hr Hu1) with (k := 0%nat); auto. intros i Hi. split.
    + destruct Hw as (_ & _ & _ & Lc). left. eapply Forall_forall in HC; eauto. apply nth_In. lia.
    + intros v Hv. apply EN in Hv. subst v. apply Sr_exact.
Qed.
Lemma basis_fma MAXB {V} (s : spline V) {W} (s' : spline W) xs : (MAXB <= 68)%nat -> degrees s' = degrees s ->
  wf s -> length xs = length (degrees s) -> Forall (fun q => (q < MAXB)%nat) (degrees s) -> in_unit_box xs ->
  exists fs l, BasisFunctions (o := SOps_term rnd) MAXB s' (map Num xs) = Ok fs /\ length fs = n_coeffs (degrees s) /\
    forall i, (i < n_coeffs (degrees s))%nat -> single rnd (nth i fs (Num 0)) (nth i l 0) /\
      0 <= basis_at (degrees s) xs i /\ Sr u (basis_roundings (degrees s)) (nth i l 0) (basis_at (degrees s) xs i).
Proof using Hp HR.
  intros HB Hd Hw HL HD HX. destruct (Basis_sr rnd u Hu Hr Hu1 MAXB s xs) as (l' & E & F); auto.
  pose proof (Basis_single rnd MAXB s' s xs Hd) as H. rewrite E in H.
  destruct (BasisFunctions (o := SOps_term rnd) MAXB s' (map Num xs)) as [fs| | | | |]; try contradiction. simpl in H.
  exists fs, l'. split; auto. assert (Ln : length l' = n_coeffs (degrees s)) by (rewrite (F2_length _ _ _ F), map_length, seq_length; auto).
  assert (Lf := F2_length _ _ _ H). split; [lia|]. intros i Hi. split.
  - apply (F2_nth _ _ _ i (Num 0) 0 H). lia.
  - rewrite <- (nth_map_seq (basis_at (degrees s) xs) (n_coeffs (degrees s)) i 0) by auto. apply (F2_nth _ _ _ i 0 0 F). lia.
Qed.
End WithRnd.

Lemma c101_evaluate : forall p rnd d (s : spline (point R d)) xs e, (0 < p)%nat -> nearest p rnd ->
  wf s -> length xs = length (degrees s) -> in_unit_box xs -> Evaluate_fma rnd s xs e -> forall k, (k < d)%nat ->
    Rabs (coord d e k - coord d (value_at s xs) k) <= gamma p (casteljau_roundings (degrees s)) * magnitude s xs k.
Proof.
  intros p rnd d s xs e Hp HR Hw HL HX (t & E & H) k Hk. apply (eval_fma p rnd Hp HR d s xs t Hw HL HX E k Hk _ (H k Hk)).
Qed.
Lemma c101_evaluate_scalar : forall p rnd (s : spline R) xs e, (0 < p)%nat -> nearest p rnd ->
  wf s -> length xs = length (degrees s) -> in_unit_box xs -> Evaluate_fma_s rnd s xs e ->
    Rabs (e - value_at s xs) <= gamma p (casteljau_roundings (degrees s)) * magnitude_s s xs.
Proof.
  intros p rnd s xs e Hp HR Hw HL HX (t & E & H). apply (proj1 (eval_fma_s p rnd Hp HR s xs t Hw HL HX E) _ H).
Qed.
Lemma c101_forward : forall p rnd MAXB d (s : spline (point R d)) xs e, (0 < p)%nat -> nearest p rnd -> (MAXB <= 68)%nat ->
  wf s -> length xs = length (degrees s) -> Forall (fun q => (q < MAXB)%nat) (degrees s) -> in_unit_box xs ->
  ForwardEvaluate_fma rnd MAXB s xs e -> forall k, (k < d)%nat ->
    Rabs (coord d e k - coord d (value_at s xs) k) <= gamma p (forward_roundings (degrees s)) * magnitude s xs k.
Proof.
  intros p rnd MAXB d s xs e Hp HR HB Hw HL HD HX (t & E & H) k Hk.
  destruct (basis_fma p rnd Hp HR MAXB s (num_spline s) xs HB eq_refl Hw HL HD HX) as (fs & l & EF & Lf & HF).
  unfold ForwardEvaluate in E. rewrite EF in E. cbn [bind] in E.
  assert (Lc : length (control_points s) = n_coeffs (degrees s)) by apply Hw.
  rewrite (combine_points_any (o := SOps_term rnd) (ov := Vt rnd d)) in E by (cbn [num_spline control_points]; rewrite map_length; lia). apply fma_ok_inj in E. subst t.
  specialize (H k Hk). rewrite coord_vsum_t, Lf in H by auto.
  rewrite coord_value. unfold magnitude. rewrite !(bezier_flat (V := R)) by auto.
  apply (Accumulate_fma rnd (/ 2 ^ p) (unit_pos p) (nearest_error p rnd Hp HR) (unit_lt_1 p Hp) true (basis_roundings (degrees s))
    (basis_at (degrees s) xs) (fun i => nth i l 0) (fun i => coord d (nth i (control_points s) v0) k) (fun i => nth i fs (Num 0)) (rnd_idem p rnd HR)); auto.
  erewrite vsum_ext_any in H; [exact H|]. intros i Hi. cbn [vscale VOps_point VOps_sw].
  rewrite (coord_t_pmap rnd d (fun x => smul (SOps := SOps_term rnd) x (nth i fs (Num 0)))) by auto. cbn [smul SOps_term]. f_equal.
  apply (coord_cp rnd d s i k Hk).
Qed.
Lemma c101_forward_scalar : forall p rnd MAXB (s : spline R) xs e, (0 < p)%nat -> nearest p rnd -> (MAXB <= 68)%nat ->
  wf s -> length xs = length (degrees s) -> Forall (fun q => (q < MAXB)%nat) (degrees s) -> in_unit_box xs ->
  ForwardEvaluate_fma_s rnd MAXB s xs e ->
    Rabs (e - value_at s xs) <= gamma p (forward_roundings (degrees s)) * magnitude_s s xs.
Proof.
  intros p rnd MAXB s xs e Hp HR HB Hw HL HD HX (t & E & H).
  destruct (basis_fma p rnd Hp HR MAXB s (num_spline_s s) xs HB eq_refl Hw HL HD HX) as (fs & l & EF & Lf & HF).
  unfold ForwardEvaluate in E. rewrite EF in E. cbn [bind] in E.
  assert (Lc : length (control_points s) = n_coeffs (degrees s)) by apply Hw.
  rewrite (combine_points_any (o := SOps_term rnd) (ov := Vts rnd)) in E by (cbn [num_spline_s control_points]; rewrite map_length; lia). apply fma_ok_inj in E. subst t.
  unfold value_at, magnitude_s. rewrite !(bezier_flat (V := R)) by auto. rewrite Lf in H.
  apply (Accumulate_fma rnd (/ 2 ^ p) (unit_pos p) (nearest_error p rnd Hp HR) (unit_lt_1 p Hp) false (basis_roundings (degrees s))
    (basis_at (degrees s) xs) (fun i => nth i l 0) (fun i => nth i (control_points s) 0) (fun i => nth i fs (Num 0)) (rnd_idem p rnd HR)); auto.
  change (Vts rnd) with (VOps_sw rnd false) in H.
  erewrite vsum_ext_any in H; [exact H|]. intros i Hi. cbn [v0 VOps_sw num_spline_s control_points]. rewrite (map_nth Num). reflexivity.
Qed.

(** Values without contraction are among the possible ones. *)
Lemma c101_plain : forall rnd MAXB d (s : spline (point R d)) xs e,
  (Evaluate_rnd rnd s xs = Ok e -> Evaluate_fma rnd s xs e) /\
  (ForwardEvaluate_rnd rnd MAXB s xs = Ok e -> ForwardEvaluate_fma rnd MAXB s xs e).
Proof.
  intros rnd MAXB d s xs e. split; intros E.
  - pose proof (Evaluate_rel _ _ (rel_plain rnd) (rel_plain_point rnd d) _ _ _ _ (srel_num rnd d s) (xs_num rnd xs)) as H.
    unfold Evaluate_rnd in E. rewrite E in H. unfold Evaluate_fma.
    destruct (Evaluate (num_spline s) (map Num xs)) as [t| | | | |]; try contradiction. exists t. split; auto. now apply pmeans_point.
  - pose proof (ForwardEvaluate_rel _ _ (rel_plain rnd) (rel_plain_point rnd d) MAXB _ _ _ _ (srel_num rnd d s) (xs_num rnd xs)) as H.
    unfold ForwardEvaluate_rnd in E. rewrite E in H. unfold ForwardEvaluate_fma.
    destruct (ForwardEvaluate MAXB (num_spline s) (map Num xs)) as [t| | | | |]; try contradiction. exists t. split; auto. now apply pmeans_point.
Qed.
Lemma c101_plain_scalar : forall rnd MAXB (s : spline R) xs e,
  (Evaluate_rnd_s rnd s xs = Ok e -> Evaluate_fma_s rnd s xs e) /\
  (ForwardEvaluate_rnd_s rnd MAXB s xs = Ok e -> ForwardEvaluate_fma_s rnd MAXB s xs e).
Proof.
  intros rnd MAXB s xs e. split; intros E.
  - pose proof (Evaluate_rel _ _ (rel_plain rnd) (rel_plain_scalar rnd) _ _ _ _ (srel_num_s rnd s) (xs_num rnd xs)) as H.
    unfold Evaluate_rnd_s in E. rewrite E in H. unfold Evaluate_fma_s.
    destruct (Evaluate (num_spline_s s) (map Num xs)) as [t| | | | |]; try contradiction. exists t. split; auto.
  - pose proof (ForwardEvaluate_rel _ _ (rel_plain rnd) (rel_plain_scalar rnd) MAXB _ _ _ _ (srel_num_s rnd s) (xs_num rnd xs)) as H.
    unfold ForwardEvaluate_rnd_s in E. rewrite E in H. unfold ForwardEvaluate_fma_s.
    destruct (ForwardEvaluate MAXB (num_spline_s s) (map Num xs)) as [t| | | | |]; try contradiction. exists t. split; auto.
Qed.

(** Rational splines. *)
Lemma div_term rnd d (t : point term d) w : w <> Num 0 ->
  vdiv (o := SOps_term rnd) (ov := Vt rnd d) t w = Ok (pmap d (fun x => Mul x (Div (Num 1) w)) t).
Proof.
  intros H. unfold vdiv, divS. cbn [seqb s0 SOps_term].
  destruct w as [y| | | | |]; try reflexivity. destruct (Req_EM_T y 0) as [->|_]; [congruence|reflexivity].
Qed.
Lemma fma_weight_pos (w : spline R) xs : wf w -> length xs = length (degrees w) -> in_unit_box xs ->
  Forall (fun c => 0 < c) (control_points w) -> 0 < value_at w xs.
Proof.
  intros (_ & _ & _ & Lc) HL HX HW. unfold value_at.
  assert (Ex : exists m, 0 < m /\ forall i, (i < n_coeffs (degrees w))%nat -> m <= nth i (control_points w) 0).
  { rewrite <- Lc. clear - HW. induction HW as [|a l Ha HW (m & Hm & IH)]; [exists 1; split; [lra|]; intros; simpl in *; lia|].
    exists (Rmin a m). split; [apply Rmin_pos; auto|]. intros [|i] Hi; simpl in *; [apply Rmin_l|].
    eapply Rle_trans; [apply Rmin_r|]. apply IH. lia. }
  destruct Ex as (m & Hm & HH). apply Rlt_le_trans with m; auto. rewrite <- dct_bezier by auto.
  assert (D : 0 <= dct (degrees w) xs (fun i => nth i (control_points w) 0 - m)).
  { apply dct_nonneg; auto. intros i Hi. specialize (HH i Hi). lra. }
  rewrite dct_bezier in * by auto.
  change (fun i => nth i (control_points w) 0 - m) with (fun i => vsub (V := R) ((fun i => nth i (control_points w) 0) i) ((fun _ => m) i)) in D.
  rewrite bezier_sub, (bezier_const (V := R) _ _ m) in D by auto. cbn [vsub VOps_scalar ssub SOps_R] in D. cbn [v0 VOps_scalar s0 SOps_R]. change R0 with 0. lra.
Qed.
Lemma c101_rational : forall p rnd d (r : rspline R (point R d)) xs e, (0 < p)%nat -> nearest p rnd ->
  rwf r -> length xs = length (rdegrees r) -> in_unit_box xs ->
  Forall (fun w => 0 < w) (control_points (weight_function r)) -> R_Evaluate_fma rnd r xs e -> forall k, (k < d)%nat ->
    Rabs (coord d e k - coord d (rvalue r xs) k) <=
    ((1 + / 2 ^ p) ^ (casteljau_roundings (rdegrees r) + 2) / (1 - / 2 ^ p) ^ casteljau_roundings (rdegrees r) - 1) *
    (magnitude (weighted_spline r) xs k / value_at (weight_function r) xs).
Proof.
  intros p rnd d r xs e Hp HR Hrw HL HX HW (t & E & H) k Hk. pose proof Hrw as (Hw1 & Hw2 & Hdeg). unfold rdegrees in *.
  unfold R_Evaluate in E. cbn [num_rational weighted_spline weight_function] in E.
  destruct (bind_ok _ _ _ E) as (te & E1 & E'). destruct (bind_ok _ _ _ E') as (tw & E2 & E3). clear E E'.
  pose proof (eval_fma p rnd Hp HR d (weighted_spline r) xs te Hw1 HL HX E1 k Hk) as He.
  rewrite <- Hdeg in HL. destruct (eval_fma_s p rnd Hp HR (weight_function r) xs tw Hw2 HL HX E2) as (_ & Sw). specialize (Sw HW).
  rewrite Hdeg in HL, Sw. rewrite div_term in E3.
  2:{ intros ->. cbn in E3. unfold vdiv, divS in E3. cbn [seqb s0 SOps_term] in E3. destruct (Req_EM_T 0 0); [discriminate|congruence]. }
  apply fma_ok_inj in E3. subst t. specialize (H k Hk). rewrite coord_t_pmap in H by auto.
  apply mul_mean in H. destruct H as (a & b & Ha & Hb & ->). apply div_inv in Hb. destruct Hb as (o & w & Ho & Hw & _ & ->).
  apply num_mean in Ho. subst o. specialize (He a Ha). specialize (Sw w Hw).
  set (u := / 2 ^ p) in *. assert (Hu : 0 <= u) by apply unit_pos. assert (Hu1 : u < 1) by (apply unit_lt_1; auto).
  pose proof (nearest_error p rnd Hp HR) as Hr. fold u in Hr. set (K := casteljau_roundings (degrees (weighted_spline r))) in *.
  assert (Pw : 0 < value_at (weight_function r) xs) by (apply fma_weight_pos; auto; congruence).
  pose proof (Sr_pos u Hu1 K w _ Pw Sw) as Pw'. set (W := value_at (weight_function r) xs) in *.
  assert (I : Er (/ (1 - u) ^ K * (1 + u)) (rnd (1 / w)) (/ W) (/ W)).
  { unfold Rdiv. rewrite Rmult_1_l. apply Er_rnd; auto. apply Sr_inv; auto. }
  assert (G1 : 1 <= / (1 - u) ^ K).
  { assert (0 < (1 - u) ^ K) by (apply pow_lt; lra). apply Rle_trans with (/ 1); [rewrite Rinv_1; lra|]. apply Rinv_le_contravar; auto.
    apply Rle_trans with (1 ^ K); [apply pow_incr; lra|rewrite pow1; lra]. }
  assert (Q : Er (/ (1 - u) ^ K * (1 + u) * (1 + u) ^ K * (1 + u)) (rnd (a * rnd (1 / w))) (/ W * coord d (value_at (weighted_spline r) xs) k)
    (/ W * magnitude (weighted_spline r) xs k)).
  { rewrite (Rmult_comm a). apply Er_rnd; auto. apply (Er_mul (/ (1 - u) ^ K * (1 + u)) ((1 + u) ^ K)); auto; [nra|]. apply pow_R1_Rle. lra. }
  destruct Q as (Q & _).
  replace (coord d (rvalue r xs) k) with (/ W * coord d (value_at (weighted_spline r) xs) k).
  2:{ unfold rvalue. rewrite coord_scale. fold W. cbn. field. lra. }
  eapply Rle_trans; [exact Q|]. right. unfold Rdiv. rewrite pow_add. simpl ((1 + u) ^ 2). ring.
Qed.
Lemma c101_rational_plain : forall rnd d (r : rspline R (point R d)) xs e,
  R_Evaluate_rnd rnd r xs = Ok e -> R_Evaluate_fma rnd r xs e.
Proof.
  intros rnd d r xs e E. unfold R_Evaluate_rnd, R_Evaluate in E.
  destruct (bind_ok _ _ _ E) as (a & E1 & E'). destruct (bind_ok _ _ _ E') as (w & E2 & E3). clear E E'.
  pose proof (Evaluate_rel _ _ (rel_plain rnd) (rel_plain_point rnd d) _ _ _ _ (srel_num rnd d (weighted_spline r)) (xs_num rnd xs)) as H1.
  pose proof (Evaluate_rel _ _ (rel_plain rnd) (rel_plain_scalar rnd) _ _ _ _ (srel_num_s rnd (weight_function r)) (xs_num rnd xs)) as H2.
  rewrite E1 in H1. rewrite E2 in H2. unfold R_Evaluate_fma, R_Evaluate. cbn [num_rational weighted_spline weight_function].
  destruct (Evaluate (num_spline (weighted_spline r)) (map Num xs)) as [ta| | | | |]; try contradiction.
  destruct (Evaluate (num_spline_s (weight_function r)) (map Num xs)) as [tw| | | | |]; try contradiction. simpl in H1, H2.
  unfold vdiv, divS in E3. cbn [seqb s0 SOps_rnd] in E3. destruct (Req_EM_T w 0) as [|Nw]; [discriminate|].
  cbn [bind] in E3. apply fma_ok_inj in E3. subst e. cbn [bind]. rewrite div_term.
  2:{ intros ->. apply num_mean in H2. congruence. }
  eexists; split; [reflexivity|]. intros k Hk. rewrite coord_t_pmap by auto.
  rewrite coord_scale_rnd by auto. rewrite Rmult_comm. constructor; [apply (pmeans_point _ _ _ _ H1 k Hk)|].
  apply (m_div rnd); auto. constructor.
Qed.

(** Corners. *)
Lemma dc_corner_fma p rnd sw x f f' r : (0 < p)%nat -> nearest p rnd -> x = 0 \/ x = 1 ->
  (forall i, representable p (f i)) -> (forall i v, means rnd (f' i) v -> v = f i) -> forall j v,
  means rnd (dc (o := SOps_term rnd) (ov := VOps_sw rnd sw) (Num x) f' r j) v -> v = (if Req_EM_T x 0 then f j else f (j + r)%nat).
Proof.
  intros Hp HR Hx HF Hf. induction r; intros j v Hv.
  - apply Hf in Hv. rewrite Nat.add_0_r. destruct (Req_EM_T x 0); auto.
  - cbn [dc] in Hv. apply add_inv in Hv. destruct Hv as (P & Q & HP & HQ & ->).
    apply scale_inv in HP, HQ. destruct HP as (c & a & Hc & Ha & EP), HQ as (c' & b & Hc' & Hb & EQ).
    apply one_minus in Hc. apply num_mean in Hc'. subst c c'. apply IHr in Ha, Hb.
    destruct (Req_EM_T x 0) as [->|N].
    + rewrite Rminus_0_r, (nearest_exact p rnd 1), Rmult_1_l in EP by (auto using repr_1). rewrite Rmult_0_l in EQ.
      rewrite (nearest_exact p rnd 0) in EQ by (auto using repr_0). replace Q with 0 by (destruct EP, EQ; congruence). subst a.
      rewrite (nearest_exact p rnd (f j)) in EP by auto. replace P with (f j) by (destruct EP, EQ; congruence). rewrite Rplus_0_r. apply (nearest_exact p); auto.
    + destruct Hx as [->| ->]; [lra|]. replace (1 - 1) with 0 in EP by ring.
      rewrite (nearest_exact p rnd 0), Rmult_0_l in EP by (auto using repr_0). rewrite (nearest_exact p rnd 0) in EP by (auto using repr_0).
      replace P with 0 by (destruct EP, EQ; congruence). rewrite Rmult_1_l in EQ. subst b. rewrite (nearest_exact p rnd (f (S j + r)%nat)) in EQ by auto.
      replace Q with (f (S j + r)%nat) by (destruct EP, EQ; congruence). rewrite Rplus_0_l. replace (j + S r)%nat with (S j + r)%nat by lia. apply (nearest_exact p); auto.
Qed.
Lemma dct_corner_fma p rnd sw degs xs f f' : (0 < p)%nat -> nearest p rnd -> Forall (fun x => x = 0 \/ x = 1) xs ->
  (forall i, representable p (f i)) -> (forall i v, means rnd (f' i) v -> v = f i) -> forall v,
  means rnd (dct (o := SOps_term rnd) (ov := VOps_sw rnd sw) degs (map Num xs) f') v -> v = dct (V := R) degs xs f.
Proof.
  intros Hp HR. revert xs f f'; induction degs as [|q degs IH]; intros xs f f' HX HF Hf v Hv; [apply Hf; exact Hv|].
  destruct xs as [|x xs]; [apply Hf; exact Hv|]. inversion HX; subst. cbn [dct map] in *.
  eapply IH; [auto| | |exact Hv].
  - intros m. cbn beta. rewrite dc_corner_exact by auto. destruct (Req_EM_T x 0); auto.
  - intros m w Hw. rewrite dc_corner_exact by auto. eapply (dc_corner_fma p rnd sw x (fun j => f (j + S q * m)%nat) (fun j => f' (j + S q * m)%nat) q Hp HR); eauto.
Qed.
Lemma c101_corners : forall p rnd d (s : spline (point R d)) xs e, (0 < p)%nat -> nearest p rnd ->
  wf s -> length xs = length (degrees s) -> Forall (fun x => x = 0 \/ x = 1) xs ->
  Forall (fun c => forall k, (k < d)%nat -> representable p (coord d c k)) (control_points s) ->
  Evaluate_fma rnd s xs e -> e = value_at s xs.
Proof.
  intros p rnd d s xs e Hp HR Hw HL HX HC (t & E & H).
  rewrite Evaluate_dct in E by (rewrite ?map_length; auto using wf_num). apply fma_ok_inj in E. subst t.
  apply (point_ext (o := SOps_R)). intros k Hk. specialize (H k Hk). rewrite coord_dct_t in H by auto. rewrite coord_value, <- dct_bezier by auto.
  eapply (dct_corner_fma p rnd true _ _ (fun i => coord d (nth i (control_points s) v0) k)) in H; auto.
  - intros i. cbn beta. destruct (lt_dec i (length (control_points s))) as [Hi|Hi].
    + eapply Forall_forall in HC; [|apply nth_In; exact Hi]. auto.
    + rewrite nth_overflow by lia. change (v0 (V := point R d)) with (pconst d 0). rewrite (coord_const (o := SOps_R)) by auto. apply repr_0.
  - intros i v Hv. pose proof (coord_cp rnd d s i k Hk) as EC. rewrite EC in Hv. apply num_mean in Hv. exact Hv.
Qed.

(** The values of a line, and a line on which contraction changes the result. *)
Lemma c101_line : forall rnd c0 c1 x e,
  Evaluate_fma_s rnd (mkSpline [1%nat] 2 [1%nat] [c0; c1]) [x] e <->
  let a := rnd (1 - x) * c0 in let b := x * c1 in
  e = rnd (rnd a + rnd b) \/ e = rnd (a + rnd b) \/ e = rnd (rnd a + b).
Proof.
  intros rnd c0 c1 x e. cbv zeta. unfold Evaluate_fma_s.
  assert (E : Evaluate (o := SOps_term rnd) (ov := Vts rnd) (num_spline_s (mkSpline [1%nat] 2 [1%nat] [c0; c1])) (map Num [x]) =
    Ok (Add (Mul (Sub (Num 1) (Num x)) (Num c0)) (Mul (Num x) (Num c1)))) by reflexivity.
  rewrite E. assert (S1 := single_sub rnd x). split.
  - intros (t & Et & H). apply fma_ok_inj in Et. subst t.
    assert (M1 : forall v, means rnd (Mul (Sub (Num 1) (Num x)) (Num c0)) v -> v = rnd (rnd (1 - x) * c0)).
    { intros v Hv. apply mul_mean in Hv. destruct Hv as (a & b & Ha & Hb & ->). apply S1 in Ha. apply num_mean in Hb. now subst. }
    assert (M2 : forall v, means rnd (Mul (Num x) (Num c1)) v -> v = rnd (x * c1)).
    { intros v Hv. apply mul_mean in Hv. destruct Hv as (a & b & Ha & Hb & ->). apply num_mean in Ha, Hb. now subst. }
    inversion H; subst.
    + apply M1 in H2. apply M2 in H4. subst. auto.
    + inversion H2; subst. apply M2 in H4. apply S1 in H3. apply num_mean in H6. subst. auto.
    + inversion H4; subst. apply M1 in H2. apply num_mean in H3, H6. subst. auto.
  - intros H. eexists; split; [reflexivity|].
    assert (M0 : means rnd (Sub (Num 1) (Num x)) (rnd (1 - x))) by (apply S1; auto).
    destruct H as [->|[->| ->]].
    + repeat (constructor; auto).
    + apply m_add_l; repeat (constructor; auto).
    + apply m_add_r; repeat (constructor; auto).
Qed.
Lemma c101_differs : exists (s : spline R) x, wf s /\ degrees s = [1%nat] /\ in_unit_box [x] /\ representable 53 x /\
  Forall (representable 53) (control_points s) /\ value_at s [x] = 0 /\
  forall rnd, nearest 53 rnd -> Evaluate_rnd_s rnd s [x] = Ok 0 /\
    forall e, Evaluate_fma_s rnd s [x] e <-> e = 0 \/ e = / 8 \/ e = - / 8.
Proof.
  assert (I2 : powerRZ 2 (-1) = / 2) by (simpl; lra). assert (I8 : powerRZ 2 (-3) = / 8) by (simpl; lra).
  exists (mkSpline [1%nat] 2 [1%nat] [6004799503160665; -3602879701896399]), (5 / 8).
  split; [repeat split; discriminate|]. split; [reflexivity|]. split; [constructor; [lra|constructor]|].
  split; [exists 5%Z, (-3)%Z; split; [reflexivity|]; rewrite I8; lra|]. split.
  { constructor; [exists 6004799503160665%Z, 0%Z|constructor; [exists (-3602879701896399)%Z, 0%Z|constructor]]; (split; [reflexivity|]); simpl; lra. }
  split.
  { unfold value_at. rewrite <- dct_bezier by reflexivity.
    cbn [degrees control_points dct dc nth Nat.add Nat.mul vadd vscale VOps_scalar sadd smul ssub s1 SOps_R]. change R1 with 1. lra. }
  intros rnd HR.
  assert (R1' : rnd (1 - 5 / 8) = 3 / 8).
  { replace (1 - 5 / 8) with (3 / 8) by lra. apply (nearest_exact 53); auto. exists 3%Z, (-3)%Z. split; [reflexivity|]. rewrite I8. lra. }
  set (m := 4503599627370499%Z).
  assert (Ra : rnd (3 / 8 * 6004799503160665) = 4503599627370499 / 2).
  { rewrite (nearest_unique 53 rnd _ m (-1)); auto; [rewrite I2; unfold m; lra|lia|split; reflexivity|].
    rewrite I2. unfold m. apply Rabs_def1; lra. }
  assert (Rb : rnd (5 / 8 * -3602879701896399) = - 4503599627370499 / 2).
  { rewrite (nearest_unique 53 rnd _ (- m) (-1)); auto; [rewrite I2; unfold m; cbn [Z.opp]; lra|lia|split; reflexivity|].
    rewrite I2. unfold m. cbn [Z.opp]. apply Rabs_def1; lra. }
  assert (Z0 : rnd 0 = 0) by (apply (nearest_exact 53); auto using repr_0).
  assert (P8 : rnd (/ 8) = / 8).
  { apply (nearest_exact 53); auto. exists 1%Z, (-3)%Z. split; [reflexivity|]. rewrite I8. lra. }
  assert (N8 : rnd (- / 8) = - / 8).
  { apply (nearest_exact 53); auto. exists (-1)%Z, (-3)%Z. split; [reflexivity|]. rewrite I8. lra. }
  assert (E1 : rnd (4503599627370499 / 2 + - 4503599627370499 / 2) = 0).
  { replace (4503599627370499 / 2 + - 4503599627370499 / 2) with 0 by lra. auto. }
  split.
  - cbn [Evaluate_rnd_s]. unfold Evaluate_rnd_s. rewrite Evaluate_dct by (auto; repeat split; discriminate).
    cbn [degrees control_points dct dc nth Nat.add Nat.mul vadd vscale VOps_scalar sadd smul ssub s1 SOps_rnd].
    rewrite R1', Ra, Rb, E1. reflexivity.
  - intros e. rewrite c101_line. cbv zeta. rewrite R1', Ra, Rb, E1.
    replace (3 / 8 * 6004799503160665 + - 4503599627370499 / 2) with (- / 8) by lra.
    replace (4503599627370499 / 2 + 5 / 8 * -3602879701896399) with (/ 8) by lra. rewrite P8, N8. tauto.
Qed.
(** What the compiler may do with one product and one sum or difference. *)
Lemma c101_contractions : forall rnd x y z v,
  let p := Mul (Num x) (Num y) in
  (means rnd (Add p (Num z)) v <-> v = rnd (rnd (x * y) + z) \/ v = rnd (x * y + z)) /\
  (means rnd (Add (Num z) p) v <-> v = rnd (z + rnd (x * y)) \/ v = rnd (z + x * y)) /\
  (means rnd (Sub p (Num z)) v <-> v = rnd (rnd (x * y) - z) \/ v = rnd (x * y - z)) /\
  (means rnd (Sub (Num z) p) v <-> v = rnd (z - rnd (x * y)) \/ v = rnd (z - x * y)) /\
  (means rnd (Add (Opp p) (Num z)) v <-> v = rnd (- rnd (x * y) + z) \/ v = rnd (- (x * y) + z)) /\
  (means rnd (Mul p (Num z)) v <-> v = rnd (rnd (x * y) * z)).
Proof.
  intros rnd x y z v p.
  assert (M : forall w, means rnd p w <-> w = rnd (x * y)) by (apply single_mul; apply single_num).
  assert (N : forall w, means rnd (Num z) w <-> w = z) by apply single_num.
  assert (X : forall w, exact rnd p w <-> w = x * y).
  { intros w. split; intros H.
    - inversion H; subst. apply num_mean in H2, H4. now subst.
    - subst w. repeat constructor. }
  assert (NX : forall w, ~ exact rnd (Num z) w) by (intros w H; inversion H).
  assert (O : forall w, means rnd (Opp p) w <-> w = - rnd (x * y)).
  { intros w. split; intros H.
    - inversion H; subst. apply M in H1. now subst.
    - subst w. constructor. now apply M. }
  assert (OX : forall w, exact rnd (Opp p) w <-> w = - (x * y)).
  { intros w. split; intros H.
    - inversion H; subst. apply X in H1. now subst.
    - subst w. constructor. now apply X. }
  assert (A : forall t a b w, (forall c, means rnd t c <-> c = a) -> (forall c, exact rnd t c <-> c = b) ->
    (means rnd (Add t (Num z)) w <-> w = rnd (a + z) \/ w = rnd (b + z))).
  { intros t a b w Ha Hb. split; intros H.
    - inversion H; subst.
      + apply Ha in H2. apply N in H4. subst. auto.
      + apply Hb in H2. apply N in H4. subst. auto.
      + exfalso. eapply NX; eassumption.
    - destruct H as [->| ->]; [apply m_add|apply m_add_l]; try (now apply N); [now apply Ha|now apply Hb]. }
  split; [apply A; auto|]. split; [|split; [|split; [|split; [apply A; auto|]]]].
  - split; intros H.
    + inversion H; subst.
      * apply N in H2. apply M in H4. subst. auto.
      * exfalso. eapply NX; eassumption.
      * apply N in H2. apply X in H4. subst. auto.
    + destruct H as [->| ->]; [apply m_add|apply m_add_r]; try (now apply N); [now apply M|now apply X].
  - split; intros H.
    + inversion H; subst.
      * apply M in H2. apply N in H4. subst. auto.
      * apply X in H2. apply N in H4. subst. auto.
      * exfalso. eapply NX; eassumption.
    + destruct H as [->| ->]; [apply m_sub|apply m_sub_l]; try (now apply N); [now apply M|now apply X].
  - split; intros H.
    + inversion H; subst.
      * apply N in H2. apply M in H4. subst. auto.
      * exfalso. eapply NX; eassumption.
      * apply N in H2. apply X in H4. subst. auto.
    + destruct H as [->| ->]; [apply m_sub|apply m_sub_r]; try (now apply N); [now apply M|now apply X].
  - apply (single_mul rnd p (Num z)); [exact M|exact N].
Qed.
