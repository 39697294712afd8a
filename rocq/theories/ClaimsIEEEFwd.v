(** C102: the basis functions and ForwardEvaluate with bounded exponents. *)
From Coq Require Import Arith Lia List ZArith NArith Bool Reals Lra Psatz.
From Verif Require Import Prelude Scalar Spec SpecSpline Sums Order Coord ModelBasis ModelSpline ModelRational
  ModelRound SpecRound ModelIEEE SpecIEEE ModelIEEEFwd SpecIEEEFwd ProofIndex ProofBasis ProofEval ProofParam ProofCasteljau ProofRound ProofRoundEval
  ProofIEEE ProofIEEEEval ProofIEEEFwd ProofIEEERun ClaimsU ClaimsIEEE.
Import ListNotations.
Local Open Scope R_scope.

Lemma loss_nonneg F degs : 0 <= basis_loss F degs.
Proof.
  unfold basis_loss. pose proof (tpos F) as Ht.
  assert (1 <= fold_right (fun q acc => (1 + INR (q + 3) * 2 ^ q * (tiny F / 2)) * acc) 1 degs); [|lra].
  induction degs as [|q l IH]; cbn [fold_right]; [lra|].
  assert (0 <= INR (q + 3) * 2 ^ q * (tiny F / 2)).
  { apply Rmult_le_pos; [|lra]. apply Rmult_le_pos; [apply pos_INR|apply pow_le; lra]. }
  nra.
Qed.
Lemma Fb1_machine F degs l' l : basis_fits F degs -> Forall2 (Fb1 F (basis_roundings degs) (basis_loss F degs)) l' l ->
  exists ys, l' = map Fin ys /\ Forall2 (fun y x => machine F y /\ 0 <= y /\
    Rabs (y - x) <= gamma (prec F) (basis_roundings degs) * x + (1 + / 2 ^ prec F) ^ basis_roundings degs * basis_loss F degs) ys l.
Proof.
  intros (_ & HO). induction 1 as [|a x l' l (X1 & y & -> & G & Y0 & X0 & B) H IH]; [exists []; split; auto|].
  destruct IH as (ys & -> & K). exists (y :: ys). split; [reflexivity|]. constructor; auto.
  split; [split; auto|split; auto].
  rewrite Rabs_right by lra. eapply Rle_trans; [apply (Bd_upper F _ _ _ _ B)|]. eapply Rle_trans; [|exact HO].
  apply Rmult_le_compat_l; [apply pow_le; pose proof (unit_pos (prec F)); lra|lra].
Qed.
Lemma c102_basis : forall F rnd V MAXB (s : spline V) xs, reasonable F -> nearest_on_grid F rnd -> (MAXB <= 68)%nat ->
  wf s -> length xs = length (degrees s) -> Forall (fun q => (q < MAXB)%nat) (degrees s) ->
  in_unit_box xs -> Forall (on_grid F) xs -> basis_fits F (degrees s) ->
  exists l l', BasisFunctions MAXB s xs = Ok l /\ BasisFunctions_ieee F rnd MAXB s (map Fin xs) = Ok (map Fin l') /\
    Forall2 (fun y x => machine F y /\ 0 <= y /\
      Rabs (y - x) <= gamma (prec F) (basis_roundings (degrees s)) * x +
                      (1 + / 2 ^ prec F) ^ basis_roundings (degrees s) * basis_loss F (degrees s)) l' l.
Proof.
  intros F rnd V MAXB s xs HF HR HB Hw HL Hd HX HG HO.
  destruct (Basis_fb F HF rnd HR MAXB s xs HB Hw HL Hd HG HX HO) as (l' & E & H).
  destruct (Fb1_machine F (degrees s) _ _ HO H) as (ys & -> & K).
  eexists; exists ys. split; [apply (BasisFunctions_ok (o := SOps_R) (F := SField_R) MAXB HB s xs Hw HL Hd)|]. split; auto.
Qed.

Lemma fin_assemble F rnd d (q : point fl d) (P : nat -> R -> Prop) :
  (forall k, (k < d)%nat -> exists z, coord (o := SOps_ieee F rnd) d q k = Fin z /\ P k z) ->
  exists e, q = fin_point d e /\ forall k, (k < d)%nat -> P k (coord d e k).
Proof.
  revert P; induction d as [|d IH]; intros P H.
  - exists tt. destruct q. split; [reflexivity|]. intros; lia.
  - destruct q as [a q]. destruct (H 0%nat ltac:(lia)) as (z & Ez & Pz). cbn in Ez.
    destruct (IH q (fun k => P (S k))) as (e & -> & He).
    { intros k Hk. apply (H (S k)). lia. }
    exists (z, e). split; [cbn; now rewrite Ez|]. intros [|k] Hk; [exact Pz|]. apply (He k). lia.
Qed.
Lemma coord_fin F rnd d (e : point R d) k : (k < d)%nat -> coord (o := SOps_ieee F rnd) d (fin_point d e) k = Fin (coord d e k).
Proof.
  unfold coord. revert k; induction d; intros k Hk; [lia|]. destruct k; [reflexivity|]. cbn. apply IHd. lia.
Qed.
Lemma coord_vsum_fl F rnd d n (f : nat -> point fl d) k : (k < d)%nat ->
  coord (o := SOps_ieee F rnd) d (vsum (ov := VOps_point fl d (o := SOps_ieee F rnd)) n f) k =
  vsum (ov := VOps_scalar fl (o := SOps_ieee F rnd)) n (fun i => coord (o := SOps_ieee F rnd) d (f i) k).
Proof.
  intros Hk. induction n; cbn [vsum].
  - apply (coord_const (o := SOps_ieee F rnd)). auto.
  - rewrite <- IHn. apply (coord_pmap2 (o := SOps_ieee F rnd) d (sadd (SOps := SOps_ieee F rnd)) _ _ k Hk).
Qed.
Lemma coord_scale_fl F rnd d c (q : point fl d) k : (k < d)%nat ->
  coord (o := SOps_ieee F rnd) d (vscale (VOps := VOps_point fl d (o := SOps_ieee F rnd)) c q) k =
  smul (SOps := SOps_ieee F rnd) c (coord (o := SOps_ieee F rnd) d q k).
Proof.
  intros Hk. replace (smul (SOps := SOps_ieee F rnd) c _) with (smul (SOps := SOps_ieee F rnd) (coord (o := SOps_ieee F rnd) d q k) c).
  - apply (coord_pmap (o := SOps_ieee F rnd) d (fun x => smul (SOps := SOps_ieee F rnd) x c) q k Hk).
  - destruct c, (coord (o := SOps_ieee F rnd) d q k); cbn [smul SOps_ieee fl_lift2]; try reflexivity. f_equal. ring.
Qed.

Section Forward.
Context (F : format) (HF : reasonable F) (rnd : R -> R) (HR : nearest_on_grid F rnd).
Notation oi := (SOps_ieee F rnd).
Lemma forward_fb MAXB {V} (s : spline V) xs (c : nat -> R) : (MAXB <= 68)%nat -> wf s -> length xs = length (degrees s) ->
  Forall (fun q => (q < MAXB)%nat) (degrees s) -> in_unit_box xs -> Forall (on_grid F) xs -> basis_fits F (degrees s) ->
  (forall i, (i < n_coeffs (degrees s))%nat -> machine F (c i)) ->
  (1 + / 2 ^ prec F) ^ forward_roundings (degrees s) * bezier (degrees s) xs (fun i => Rabs (c i)) +
    forward_loss F (degrees s) (ssum (n_coeffs (degrees s)) (fun i => Rabs (c i))) <= omega F ->
  exists l', BasisFunctions (o := oi) MAXB s (map Fin xs) = Ok l' /\ length l' = n_coeffs (degrees s) /\
    exists z, vsum (ov := VOps_scalar fl (o := oi)) (length l') (fun i => smul (SOps := oi) (nth i l' (Fin 0)) (Fin (c i))) = Fin z /\
      machine F z /\
      Rabs (z - bezier (degrees s) xs c) <= gamma (prec F) (forward_roundings (degrees s)) * bezier (degrees s) xs (fun i => Rabs (c i)) +
        forward_loss F (degrees s) (ssum (n_coeffs (degrees s)) (fun i => Rabs (c i))).
Proof using HF HR.
  intros HB Hw HL Hd HX HG HO HM HC.
  destruct (Basis_fb F HF rnd HR MAXB s xs HB Hw HL Hd HG HX HO) as (l' & E & H).
  exists l'. split; [exact E|]. assert (Ln : length l' = n_coeffs (degrees s)) by (rewrite (F2_length _ _ _ H), map_length, seq_length; auto).
  split; auto. rewrite Ln. rewrite !(bezier_flat (V := R)) in * by auto.
  destruct (Accumulate_fb F HF rnd HR (basis_roundings (degrees s)) (basis_loss F (degrees s)) (basis_at (degrees s) xs) (fun i => nth i l' (Fin 0)) c
    (n_coeffs (degrees s)) (loss_nonneg F _)) with (n := n_coeffs (degrees s)) as (z & Ez & Mz & Bz); auto.
  - intros i Hi. rewrite <- (nth_map_seq (basis_at (degrees s) xs) (n_coeffs (degrees s)) i 0) by auto. apply (F2_nth _ _ _ i (Fin 0) 0 H). lia.
  - unfold forward_loss, forward_roundings in HC. eapply Rle_trans; [|exact HC]. right.
    rewrite Rmult_plus_distr_l. reflexivity.
  - exists z. split; [exact Ez|]. split; [exact Mz|]. exact Bz.
Qed.
Lemma forward_ieee MAXB d (s : spline (point R d)) xs : (MAXB <= 68)%nat -> wf s -> length xs = length (degrees s) ->
  Forall (fun q => (q < MAXB)%nat) (degrees s) -> in_unit_box xs -> Forall (on_grid F) xs -> basis_fits F (degrees s) -> machine_points F s ->
  (forall k, (k < d)%nat -> (1 + / 2 ^ prec F) ^ forward_roundings (degrees s) * magnitude s xs k + forward_loss F (degrees s) (abs_sum s k) <= omega F) ->
  exists e, ForwardEvaluate_ieee F rnd MAXB (fin_spline s) (map Fin xs) = Ok (fin_point d e) /\ forall k, (k < d)%nat ->
    machine F (coord d e k) /\
    Rabs (coord d e k - coord d (value_at s xs) k) <=
      gamma (prec F) (forward_roundings (degrees s)) * magnitude s xs k + forward_loss F (degrees s) (abs_sum s k).
Proof using HF HR.
  intros HB Hw HL Hd HX HG HO HM HC.
  destruct (Basis_fb F HF rnd HR MAXB s xs HB Hw HL Hd HG HX HO) as (l' & E & H).
  assert (Ln : length l' = n_coeffs (degrees s)) by (rewrite (F2_length _ _ _ H), map_length, seq_length; auto).
  assert (LC : length (control_points s) = n_coeffs (degrees s)) by (destruct Hw as (_ & _ & _ & L); lia).
  unfold ForwardEvaluate_ieee, ForwardEvaluate.
  change (BasisFunctions (o := oi) MAXB (fin_spline s) (map Fin xs)) with (BasisFunctions (o := oi) MAXB s (map Fin xs)).
  rewrite E. cbn [bind]. rewrite (combine_points_any (o := oi) (ov := VOps_point fl d (o := oi))) by (cbn [control_points fin_spline]; rewrite map_length; lia).
  set (q := vsum _ _).
  destruct (fin_assemble F rnd d q (fun k z => machine F z /\ Rabs (z - coord d (value_at s xs) k) <=
      gamma (prec F) (forward_roundings (degrees s)) * magnitude s xs k + forward_loss F (degrees s) (abs_sum s k))) as (e & Ee & He).
  2:{ exists e. split; [now rewrite Ee|]. exact He. }
  intros k Hk. 
  destruct (forward_fb MAXB s xs (fun i => coord d (nth i (control_points s) v0) k) HB Hw HL Hd HX HG HO) as (l2 & E2 & _ & z & Ez & Mz & Bz); auto.
  { intros i Hi. unfold machine_points in HM. eapply Forall_forall in HM; [|apply nth_In; rewrite LC; exact Hi]. apply HM; auto. }
  { apply HC; auto. }
  rewrite E in E2. injection E2 as <-. exists z. rewrite coord_value. split; [|split; auto].
  unfold q. rewrite coord_vsum_fl by auto. rewrite <- Ez. apply vsum_ext_any. intros i Hi.
  rewrite coord_scale_fl by auto. change (s0 (SOps := oi)) with (Fin 0). f_equal. cbn [control_points fin_spline].
  rewrite fin_point_0, (map_nth (fin_point d)). apply coord_fin. auto.
Qed.
Lemma forward_ieee_s MAXB (s : spline R) xs : (MAXB <= 68)%nat -> wf s -> length xs = length (degrees s) ->
  Forall (fun q => (q < MAXB)%nat) (degrees s) -> in_unit_box xs -> Forall (on_grid F) xs -> basis_fits F (degrees s) -> machine_coeffs F s ->
  (1 + / 2 ^ prec F) ^ forward_roundings (degrees s) * magnitude_s s xs + forward_loss F (degrees s) (abs_sum_s s) <= omega F ->
  exists e, ForwardEvaluate_ieee_s F rnd MAXB (fin_spline_s s) (map Fin xs) = Ok (Fin e) /\ machine F e /\
    Rabs (e - value_at s xs) <= gamma (prec F) (forward_roundings (degrees s)) * magnitude_s s xs + forward_loss F (degrees s) (abs_sum_s s).
Proof using HF HR.
  intros HB Hw HL Hd HX HG HO HM HC.
  assert (LC : length (control_points s) = n_coeffs (degrees s)) by (destruct Hw as (_ & _ & _ & L); lia).
  destruct (forward_fb MAXB s xs (fun i => nth i (control_points s) 0) HB Hw HL Hd HX HG HO) as (l' & E & Ln & z & Ez & Mz & Bz); auto.
  { intros i Hi. unfold machine_coeffs in HM. eapply Forall_forall in HM; [|apply nth_In; rewrite LC; exact Hi]. exact HM. }
  exists z. split; [|split; auto]. unfold ForwardEvaluate_ieee_s, ForwardEvaluate.
  change (BasisFunctions (o := oi) MAXB (fin_spline_s s) (map Fin xs)) with (BasisFunctions (o := oi) MAXB s (map Fin xs)).
  rewrite E. cbn [bind]. rewrite (combine_points_any (o := oi) (ov := VOps_scalar fl (o := oi))) by (cbn [control_points fin_spline_s]; rewrite map_length; lia).
  f_equal. rewrite <- Ez. apply vsum_ext_any. intros i Hi. cbn [control_points fin_spline_s].
  change (v0 (VOps := VOps_scalar fl (o := oi))) with (Fin 0). rewrite (map_nth Fin). reflexivity.
Qed.
End Forward.
Lemma c102_forward_partial : forall F rnd MAXB d (s : spline (point R d)) xs, reasonable F -> nearest_on_grid F rnd -> (MAXB <= 68)%nat ->
  wf s -> length xs = length (degrees s) -> Forall (fun q => (q < MAXB)%nat) (degrees s) ->
  in_unit_box xs -> Forall (on_grid F) xs -> basis_fits F (degrees s) -> machine_points F s ->
  (forall k, (k < d)%nat -> (1 + / 2 ^ prec F) ^ forward_roundings (degrees s) * magnitude s xs k + forward_loss F (degrees s) (abs_sum s k) <= omega F) ->
  exists e, ForwardEvaluate_ieee F rnd MAXB (fin_spline s) (map Fin xs) = Ok (fin_point d e) /\ forall k, (k < d)%nat ->
    machine F (coord d e k) /\
    Rabs (coord d e k - coord d (value_at s xs) k) <=
      gamma (prec F) (forward_roundings (degrees s)) * magnitude s xs k + forward_loss F (degrees s) (abs_sum s k).
Proof. intros; apply forward_ieee; auto. Qed.
Lemma c102_forward_scalar_partial : forall F rnd MAXB (s : spline R) xs, reasonable F -> nearest_on_grid F rnd -> (MAXB <= 68)%nat ->
  wf s -> length xs = length (degrees s) -> Forall (fun q => (q < MAXB)%nat) (degrees s) ->
  in_unit_box xs -> Forall (on_grid F) xs -> basis_fits F (degrees s) -> machine_coeffs F s ->
  (1 + / 2 ^ prec F) ^ forward_roundings (degrees s) * magnitude_s s xs + forward_loss F (degrees s) (abs_sum_s s) <= omega F ->
  exists e, ForwardEvaluate_ieee_s F rnd MAXB (fin_spline_s s) (map Fin xs) = Ok (Fin e) /\ machine F e /\
    Rabs (e - value_at s xs) <= gamma (prec F) (forward_roundings (degrees s)) * magnitude_s s xs + forward_loss F (degrees s) (abs_sum_s s).
Proof. intros; apply forward_ieee_s; auto. Qed.

(** ** Half of the range is enough *)
Lemma pow_small a n : 0 <= a -> INR n * a <= 1 / 2 -> (1 + a) ^ n - 1 <= 2 * (INR n * a).
Proof.
  intros Ha H.
  assert (A : forall m, (1 + a) ^ m * (1 - INR m * a) <= 1 /\ 1 <= (1 + a) ^ m).
  { induction m as [|m (I1 & I2)]; [simpl; lra|]. rewrite S_INR. cbn [pow]. pose proof (pos_INR m). split; [|nra].
    assert ((1 + a) * (1 + a) ^ m * (1 - (INR m + 1) * a) = (1 + a) ^ m * (1 - INR m * a) - (1 + a) ^ m * (a * a * (INR m + 1))) as -> by ring.
    assert (0 <= (1 + a) ^ m * (a * a * (INR m + 1))) by (apply Rmult_le_pos; [lra|]; apply Rmult_le_pos; nra). lra. }
  destruct (A n) as (A1 & A2). set (g := (1 + a) ^ n) in *. set (z := INR n * a) in *. nra.
Qed.
Lemma fold_le (f : nat -> R) a degs : (forall q, In q degs -> 0 <= f q <= a) ->
  0 <= fold_right (fun q acc => (1 + f q) * acc) 1 degs <= (1 + a) ^ length degs.
Proof.
  induction degs as [|q l IH]; intros H; cbn [fold_right length pow]; [lra|].
  destruct (IH ltac:(intros; apply H; right; auto)) as (I1 & I2). destruct (H q ltac:(left; auto)) as (H1 & H2).
  split; [nra|]. apply Rmult_le_compat; lra.
Qed.
Lemma c102_formats : roomy binary64 /\ roomy binary32.
Proof. unfold roomy; simpl; lia. Qed.

Lemma omega_large F : reasonable F -> roomy F -> 2 ^ 69 <= omega F.
Proof.
  intros HF (_ & H2). pose proof HF as (P1 & _ & _). rewrite (omega_top F). 
  assert (powerRZ 2 (emax F) <= powerRZ 2 (emax F + Z.of_nat (prec F) - 1)) by (apply two_le; lia).
  assert (K : powerRZ 2 (emax F + Z.of_nat (prec F)) = 2 * powerRZ 2 (emax F + Z.of_nat (prec F) - 1)).
  { replace (emax F + Z.of_nat (prec F))%Z with (1 + (emax F + Z.of_nat (prec F) - 1))%Z at 1 by lia.
    rewrite powerRZ_add by lra. simpl powerRZ at 1. ring. }
  assert (powerRZ 2 69 <= powerRZ 2 (emax F + Z.of_nat (prec F) - 1)) by (apply two_le; lia).
  rewrite (pow_powerRZ 2 69). change (Z.of_nat 69) with 69%Z. lra.
Qed.
Lemma length_roundings degs : (4 * length degs <= basis_roundings degs)%nat.
Proof. unfold basis_roundings. induction degs; simpl in *; lia. Qed.
Lemma loss_small F degs : reasonable F -> roomy F -> Forall (fun q => (q < 68)%nat) degs ->
  INR (forward_roundings degs) * / 2 ^ prec F <= 1 / 4 ->
  basis_loss F degs <= 1 / 4 /\ INR (n_coeffs degs) * basis_loss F degs <= 1 / 8 /\ INR (n_coeffs degs) * (tiny F / 2) <= 1 / 8.
Proof.
  intros HF (R1 & R2) Hd H. pose proof (tpos F) as Ht. set (t := tiny F / 2) in *. set (p := prec F) in *.
  assert (PP : 0 < 2 ^ p) by (apply pow_lt; lra).
  assert (HN : INR (forward_roundings degs) <= 2 ^ p / 4).
  { apply (Rmult_le_reg_r (/ 2 ^ p)); [apply Rinv_0_lt_compat; auto|]. replace (2 ^ p / 4 * / 2 ^ p) with (1 / 4) by (field; lra). exact H. }
  assert (HL : 4 * INR (length degs) <= 2 ^ p / 4).
  { eapply Rle_trans; [|exact HN]. replace 4 with (INR 4) by (simpl; lra). rewrite <- mult_INR. apply le_INR. unfold forward_roundings. pose proof (length_roundings degs). lia. }
  assert (HC : INR (n_coeffs degs) <= 2 ^ p / 4).
  { eapply Rle_trans; [|exact HN]. apply le_INR. unfold forward_roundings. lia. }
  set (a := 2 ^ 74 * t).
  assert (TT : 2 ^ p * (2 ^ p * a) <= 4).
  { unfold a, t, tiny. rewrite !(pow_powerRZ 2). fold p.
    replace (powerRZ 2 (Z.of_nat p) * (powerRZ 2 (Z.of_nat p) * (powerRZ 2 (Z.of_nat 74) * (powerRZ 2 (emin F) / 2))))
      with (powerRZ 2 (Z.of_nat p + Z.of_nat p + Z.of_nat 74 + emin F) / 2) by (rewrite !powerRZ_add by lra; field).
    assert (K : powerRZ 2 (Z.of_nat p + Z.of_nat p + Z.of_nat 74 + emin F) <= powerRZ 2 3) by (apply two_le; lia).
    replace (powerRZ 2 3) with 8 in K by (simpl; ring). lra. }
  assert (A0 : 0 <= a) by (unfold a; apply Rmult_le_pos; [apply pow_le; lra|lra]).
  assert (P1 : 2 <= 2 ^ p).
  { destruct HF as (Q & _ & _). rewrite <- (pow_1 2) at 1. apply Rle_pow; [lra|]. unfold p. lia. }
  set (L := INR (length degs)) in *. set (N := INR (n_coeffs degs)) in *.
  assert (L0 : 0 <= L) by apply pos_INR. assert (N0 : 0 <= N) by apply pos_INR.
  assert (PA : 2 ^ p * a <= 2) by nra.
  assert (LA : L * a <= 1 / 8) by nra.
  assert (BL : basis_loss F degs <= 2 * (L * a)).
  { unfold basis_loss. eapply Rle_trans; [|apply (pow_small a (length degs)); [auto|fold L; lra]].
    apply Rplus_le_compat_r. apply fold_le. intros q Hq. eapply Forall_forall in Hd; eauto. fold t. split.
    - apply Rmult_le_pos; [|lra]. apply Rmult_le_pos; [apply pos_INR|apply pow_le; lra].
    - unfold a. apply Rmult_le_compat_r; [lra|]. replace (2 ^ 74) with (2 ^ 7 * 2 ^ 67) by (rewrite <- pow_add; reflexivity).
      apply Rmult_le_compat; [apply pos_INR|apply pow_le; lra| |apply Rle_pow; [lra|lia]].
      replace (2 ^ 7) with (INR 128) by (rewrite INR_IZR_INZ; simpl; lra). apply le_INR. lia. }
  pose proof (loss_nonneg F degs) as B0.
  split; [lra|]. split.
  - assert (N * basis_loss F degs <= 2 ^ p / 4 * (2 * (2 ^ p / 16 * a))).
    { apply Rmult_le_compat; auto. eapply Rle_trans; [exact BL|]. apply Rmult_le_compat_l; [lra|]. apply Rmult_le_compat_r; [auto|lra]. }
    lra.
  - assert (t <= a). { unfold a. rewrite <- (Rmult_1_l t) at 1. apply Rmult_le_compat_r; [lra|]. apply pow_R1_Rle. lra. }
    assert (8 * t <= a). { unfold a. apply Rmult_le_compat_r; [lra|]. change 8 with (IZR 8). rewrite pow_IZR. apply IZR_le. simpl. lia. }
    nra.
Qed.
Lemma sum_le_max (c : nat -> R) M n : (forall i, (i < n)%nat -> c i <= M) -> ssum n c <= INR n * M.
Proof.
  induction n; intros H; [simpl; lra|]. cbn [ssum sadd SOps_R]. rewrite S_INR. specialize (IHn ltac:(intros; apply H; lia)). specialize (H n ltac:(lia)). lra.
Qed.
Lemma half_room F degs m a M : reasonable F -> roomy F -> Forall (fun q => (q < 68)%nat) degs ->
  INR (forward_roundings degs) * / 2 ^ prec F <= 1 / 4 -> 0 <= M <= omega F / 2 -> 0 <= m <= M -> 0 <= a <= INR (n_coeffs degs) * M ->
  basis_fits F degs /\ (1 + / 2 ^ prec F) ^ forward_roundings degs * m + forward_loss F degs a <= omega F.
Proof.
  intros HF HRo Hd H HM Hm Ha. destruct (loss_small F degs HF HRo Hd H) as (L1 & L2 & L3). pose proof (loss_nonneg F degs) as L0.
  pose proof (omega_large F HF HRo) as HO.
  assert (O2 : 2 <= 2 ^ 68 /\ 2 * 2 ^ 68 = 2 ^ 69).
  { split; [|change (2 ^ 69) with (2 * 2 ^ 68); reflexivity]. rewrite <- (pow_1 2) at 1. apply Rle_pow; [lra|lia]. }
  destruct (c71_gamma (prec F) (forward_roundings degs) ltac:(lra)) as (G0 & G1). unfold gamma in *.
  assert (UB : (1 + / 2 ^ prec F) ^ basis_roundings degs <= (1 + / 2 ^ prec F) ^ forward_roundings degs).
  { apply Rle_pow; [pose proof (unit_pos (prec F)); lra|unfold forward_roundings; lia]. }
  set (A := (1 + / 2 ^ prec F) ^ forward_roundings degs) in *. set (B := (1 + / 2 ^ prec F) ^ basis_roundings degs) in *.
  assert (B0 : 0 <= B) by (apply pow_le; pose proof (unit_pos (prec F)); lra).
  assert (A1 : A <= 3 / 2) by lra.
  split; [split; [lra|]|].
  - fold B. apply Rle_trans with (3 / 2 * (1 + 1 / 4)); [apply Rmult_le_compat; lra|lra].
  - unfold forward_loss. fold A. set (l := basis_loss F degs) in *. set (N := INR (n_coeffs degs)) in *.
    assert (l * a <= M / 8). { apply Rle_trans with (l * (N * M)); [apply Rmult_le_compat_l; lra|]. replace (l * (N * M)) with (N * l * M) by ring. replace (M / 8) with (1 / 8 * M) by lra. apply Rmult_le_compat_r; [apply HM|exact L2]. }
    assert (0 <= l * a) by nra.
    assert (0 <= N * (tiny F / 2)) by (apply Rmult_le_pos; [apply pos_INR|left; apply tpos]).
    apply Rle_trans with (3 / 2 * m + 3 / 2 * (M / 8 + 1 / 8)); [|lra].
    apply Rplus_le_compat; [apply Rmult_le_compat_r; lra|]. apply Rmult_le_compat; lra.
Qed.
Lemma c102_half : forall F rnd MAXB d (s : spline (point R d)) xs, reasonable F -> roomy F -> nearest_on_grid F rnd -> (MAXB <= 68)%nat ->
  wf s -> length xs = length (degrees s) -> Forall (fun q => (q < MAXB)%nat) (degrees s) ->
  in_unit_box xs -> Forall (on_grid F) xs -> INR (forward_roundings (degrees s)) * / 2 ^ prec F <= 1 / 4 ->
  machine_points F s -> (forall i k, (i < n_coeffs (degrees s))%nat -> (k < d)%nat -> Rabs (coord d (nth i (control_points s) v0) k) <= omega F / 2) ->
  exists e, ForwardEvaluate_ieee F rnd MAXB (fin_spline s) (map Fin xs) = Ok (fin_point d e) /\ forall k, (k < d)%nat ->
    machine F (coord d e k) /\
    Rabs (coord d e k - coord d (value_at s xs) k) <=
      gamma (prec F) (forward_roundings (degrees s)) * magnitude s xs k + forward_loss F (degrees s) (abs_sum s k).
Proof.
  intros F rnd MAXB d s xs HF HRo HR HB Hw HL Hd HX HG HS HM HH. pose proof (omega_pos F HF) as PO.
  assert (Hd' : Forall (fun q => (q < 68)%nat) (degrees s)) by (eapply Forall_impl; [|exact Hd]; cbv beta; intros; lia).
  assert (K : forall k, (k < d)%nat -> 0 <= magnitude s xs k <= omega F / 2 /\ 0 <= abs_sum s k <= INR (n_coeffs (degrees s)) * (omega F / 2)).
  { intros k Hk. split; [split|split].
    - unfold magnitude. rewrite <- dct_bezier by auto. apply dct_nonneg; auto. intros; apply Rabs_pos.
    - apply c71_magnitude; auto.
    - apply (ssum_R_mono _ (n_coeffs (degrees s))); [|lia]. intros; apply Rabs_pos.
    - apply sum_le_max. intros; apply HH; auto. }
  apply c102_forward_partial; auto.
  - apply (half_room F (degrees s) 0 0 0); auto; try lra.
  - intros k Hk. destruct (K k Hk) as (K1 & K2). apply (half_room F (degrees s) _ _ (omega F / 2)); auto. lra.
Qed.

Lemma c102_half_scalar : forall F rnd MAXB (s : spline R) xs, reasonable F -> roomy F -> nearest_on_grid F rnd -> (MAXB <= 68)%nat ->
  wf s -> length xs = length (degrees s) -> Forall (fun q => (q < MAXB)%nat) (degrees s) ->
  in_unit_box xs -> Forall (on_grid F) xs -> INR (forward_roundings (degrees s)) * / 2 ^ prec F <= 1 / 4 ->
  machine_coeffs F s -> Forall (fun c => Rabs c <= omega F / 2) (control_points s) ->
  exists e, ForwardEvaluate_ieee_s F rnd MAXB (fin_spline_s s) (map Fin xs) = Ok (Fin e) /\ machine F e /\
    Rabs (e - value_at s xs) <= gamma (prec F) (forward_roundings (degrees s)) * magnitude_s s xs + forward_loss F (degrees s) (abs_sum_s s).
Proof.
  intros F rnd MAXB s xs HF HRo HR HB Hw HL Hd HX HG HS HM HH. pose proof (omega_pos F HF) as PO.
  assert (Hd' : Forall (fun q => (q < 68)%nat) (degrees s)) by (eapply Forall_impl; [|exact Hd]; cbv beta; intros; lia).
  assert (HH' : forall i, (i < n_coeffs (degrees s))%nat -> Rabs (nth i (control_points s) 0) <= omega F / 2).
  { intros i Hi. apply (proj1 (Forall_forall _ _) HH). apply nth_In. destruct Hw as (_ & _ & _ & L). lia. }
  assert (K : 0 <= magnitude_s s xs <= omega F / 2 /\ 0 <= abs_sum_s s <= INR (n_coeffs (degrees s)) * (omega F / 2)).
  { split; [split|split].
    - unfold magnitude_s. rewrite <- dct_bezier by auto. apply dct_nonneg; auto. intros; apply Rabs_pos.
    - apply magnitude_bound; auto.
    - apply (ssum_R_mono _ (n_coeffs (degrees s))); [|lia]. intros; apply Rabs_pos.
    - apply sum_le_max. intros; apply HH'; auto. }
  destruct K as (K1 & K2). apply c102_forward_scalar_partial; auto.
  - apply (half_room F (degrees s) 0 0 0); auto; try lra.
  - apply (half_room F (degrees s) _ _ (omega F / 2)); auto. lra.
Qed.

(** ** Where ForwardEvaluate overflows, and where it loses everything *)
Definition quad {T} (a b c : T) : spline T := mkSpline [2%nat] 3 [1%nat] [a; b; c].
Lemma quad_wf {T} (a b c : T) : wf (quad a b c).
Proof. split; [discriminate|]. repeat split. Qed.
Lemma run_quad F rnd m1 e1 m2 e2 m3 e3 mx ex : reasonable F -> nearest_on_grid F rnd ->
  let sd := quad (DF m1 e1) (DF m2 e2) (DF m3 e3) in
  let s := quad (dval m1 e1) (dval m2 e2) (dval m3 e3) in
  rres runs (ForwardEvaluate (o := SOps_run F) (ov := VOps_scalar dyadic (o := SOps_run F)) 30 sd [DF mx ex])
    (ForwardEvaluate_ieee_s F rnd 30 (fin_spline_s s) [Fin (dval mx ex)]) /\
  rres runs (Evaluate (o := SOps_run F) (ov := VOps_scalar dyadic (o := SOps_run F)) sd [DF mx ex])
    (Evaluate_ieee_s F rnd (fin_spline_s s) [Fin (dval mx ex)]).
Proof.
  intros HF HR sd s. assert (S : srel runs sd (fin_spline_s s)).
  { constructor; try reflexivity. cbn. repeat constructor. }
  assert (X : Forall2 runs [DF mx ex] [Fin (dval mx ex)]) by repeat constructor.
  split.
  - apply (ForwardEvaluate_rel (o1 := SOps_run F) (o2 := SOps_ieee F rnd) (ov1 := VOps_scalar dyadic (o := SOps_run F)) (ov2 := VOps_scalar fl (o := SOps_ieee F rnd))
      runs runs (run_ring F HF rnd HR) (run_mod F HF rnd HR) 30 sd (fin_spline_s s) _ _ S X).
  - apply (Evaluate_rel (o1 := SOps_run F) (o2 := SOps_ieee F rnd) (ov1 := VOps_scalar dyadic (o := SOps_run F)) (ov2 := VOps_scalar fl (o := SOps_ieee F rnd))
      runs runs (run_ring F HF rnd HR) (run_mod F HF rnd HR) sd (fin_spline_s s) _ _ S X).
Qed.
Lemma rres_Ok {A B} (P : A -> B -> Prop) a r : rres P (Ok a) r -> exists b, r = Ok b /\ P a b.
Proof. destruct r; simpl; try contradiction; eauto. Qed.
Lemma value_quad a b c x : value_at (quad a b c) [x] = (1 - x) * (1 - x) * a + 2 * (x * (1 - x)) * b + x * x * c.
Proof.
  unfold value_at. rewrite <- dct_bezier by reflexivity. cbn [quad degrees control_points dct dc vadd vscale VOps_scalar Nat.add Nat.mul nth sadd smul ssub s1 SOps_R].
  change R1 with 1. ring.
Qed.
Lemma c102_forward_refuted : forall F, F = binary64 \/ F = binary32 ->
  exists (s : spline R) x, wf s /\ degrees s = [2%nat] /\ machine_coeffs F s /\ on_grid F x /\ 0 <= x <= 1 /\ value_at s [x] = omega F /\
  forall rnd, nearest_on_grid F rnd ->
    ForwardEvaluate_ieee_s F rnd 30 (fin_spline_s s) [Fin x] = Ok Exc /\
    exists e, Evaluate_ieee_s F rnd (fin_spline_s s) [Fin x] = Ok (Fin e).
Proof.
  assert (G : forall F mx k, reasonable F -> (0 < mx < 2 ^ Z.of_nat k)%Z -> (mx < 2 ^ Z.of_nat (prec F))%Z -> (emin F <= - Z.of_nat k)%Z ->
    ForwardEvaluate (o := SOps_run F) (ov := VOps_scalar dyadic (o := SOps_run F)) 30
      (quad (DF (P2 F - 1) (emax F)) (DF (P2 F - 1) (emax F)) (DF (P2 F - 1) (emax F))) [DF mx (- Z.of_nat k)] = Ok DE ->
    exists (s : spline R) x, wf s /\ degrees s = [2%nat] /\ machine_coeffs F s /\ on_grid F x /\ 0 <= x <= 1 /\ value_at s [x] = omega F /\
    forall rnd, nearest_on_grid F rnd ->
      ForwardEvaluate_ieee_s F rnd 30 (fin_spline_s s) [Fin x] = Ok Exc /\
      exists e, Evaluate_ieee_s F rnd (fin_spline_s s) [Fin x] = Ok (Fin e)).
  { intros F mx k HF Hm Hp Hk HRun. set (om := dval (P2 F - 1) (emax F)). assert (OM : omega F = om) by apply omega_d.
    pose proof (omega_pos F HF) as PO.
    assert (MO : machine F om) by (rewrite <- OM; split; [apply grid_omega; auto|rewrite Rabs_right; lra]).
    assert (MC : machine_coeffs F (quad om om om)) by (unfold machine_coeffs, quad; cbn [control_points]; auto).
    assert (GX : on_grid F (dval mx (- Z.of_nat k))).
    { exists mx, (- Z.of_nat k)%Z. split; [lia|]. split; [lia|reflexivity]. }
    assert (HX : 0 <= dval mx (- Z.of_nat k) <= 1).
    { split; [unfold dval; apply Rmult_le_pos; [apply IZR_le; lia|left; apply two_pos]|].
      apply Rle_trans with (dval (2 ^ Z.of_nat k) (- Z.of_nat k)); [apply dval_le; lia|].
      unfold dval. rewrite two_Z by lia. rewrite two_inv. lra. }
    exists (quad om om om), (dval mx (- Z.of_nat k)). split; [apply quad_wf|]. split; [reflexivity|]. split; [exact MC|].
    split; [exact GX|]. split; [exact HX|]. split; [rewrite value_quad, OM; ring|]. intros rnd HR. split.
    - destruct (run_quad F rnd (P2 F - 1) (emax F) (P2 F - 1) (emax F) (P2 F - 1) (emax F) mx (- Z.of_nat k) HF HR) as (K & _).
      rewrite HRun in K. apply rres_Ok in K. destruct K as (b & Eb & Hb). cbn [runs] in Hb. subst b. exact Eb.
    - destruct (c89_evaluate_scalar F rnd (quad om om om) [dval mx (- Z.of_nat k)] HF HR (quad_wf om om om) eq_refl) as (e & Ee & _); auto.
      { unfold in_unit_box; auto. }
      exists e. exact Ee. }
  intros F [->| ->].
  - apply (G binary64 7%Z 29%nat); [apply c89_formats|simpl; lia|simpl; lia|simpl; lia|vm_compute; reflexivity].
  - apply (G binary32 3%Z 14%nat); [apply c89_formats|simpl; lia|simpl; lia|simpl; lia|vm_compute; reflexivity].
Qed.
Lemma c102_lost : exists (s : spline R) x, wf s /\ degrees s = [2%nat] /\ machine_coeffs binary64 s /\ on_grid binary64 x /\ 0 <= x <= 1 /\
  value_at s [x] = / 2 ^ 200 /\
  forall rnd, nearest_on_grid binary64 rnd ->
    ForwardEvaluate_ieee_s binary64 rnd 30 (fin_spline_s s) [Fin x] = Ok (Fin 0) /\
    Evaluate_ieee_s binary64 rnd (fin_spline_s s) [Fin x] = Ok (Fin (/ 2 ^ 200)).
Proof.
  pose proof (proj1 c89_formats) as HF.
  assert (Z0 : forall e, dval 0 e = 0) by (intros; unfold dval; ring).
  assert (V : / 2 ^ 200 = dval 1 (-200)).
  { unfold dval. rewrite Rmult_1_l. change (-200)%Z with (- Z.of_nat 200)%Z. rewrite powerRZ_neg', pow_powerRZ. reflexivity. }
  assert (N1 : forall e, dval 1 e = powerRZ 2 e) by (intros; unfold dval; ring).
  exists (quad (dval 0 0) (dval 0 0) (dval 1 1000)), (dval 1 (-600)). split; [apply quad_wf|]. split; [reflexivity|]. split; [|split; [|split; [|split]]].
  - assert (machine binary64 (dval 0 0)).
    { rewrite Z0. split; [apply grid_0|]. rewrite Rabs_R0. left. apply omega_pos; auto. }
    assert (machine binary64 (dval 1 1000)).
    { split; [exists 1%Z, 1000%Z; split; [reflexivity|split; [discriminate|reflexivity]]|]. apply (fits_ok binary64). vm_compute. reflexivity. }
    unfold machine_coeffs, quad; cbn [control_points]; auto.
  - exists 1%Z, (-600)%Z. split; [reflexivity|]. split; [discriminate|reflexivity].
  - rewrite N1. split; [left; apply two_pos|]. change 1 with (powerRZ 2 0). apply two_le. lia.
  - rewrite value_quad, Z0, V, !N1. rewrite !Rmult_0_r, !Rplus_0_l, <- !powerRZ_add by lra. reflexivity.
  - intros rnd HR. destruct (run_quad binary64 rnd 0 0 0 0 1 1000 1 (-600) HF HR) as (K1 & K2). cbv zeta in K1, K2. split.
    + match type of K1 with rres _ ?r _ => let v := eval vm_compute in r in replace r with v in K1 by (vm_compute; reflexivity) end.
      apply rres_Ok in K1. destruct K1 as (b & Eb & Hb). cbn [runs] in Hb. rewrite Z0 in Hb. subst b. exact Eb.
    + match type of K2 with rres _ ?r _ => let v := eval vm_compute in r in replace r with v in K2 by (vm_compute; reflexivity) end.
      apply rres_Ok in K2. destruct K2 as (b & Eb & Hb). cbn [runs] in Hb. rewrite V. rewrite Eb, Hb. do 2 f_equal. symmetry. apply (dval_shift 1 (-200) (-252)). lia.
Qed.
