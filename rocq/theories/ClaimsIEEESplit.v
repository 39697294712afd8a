(** C117: subdivision at several planes with bounded exponents. *)
From Coq Require Import Arith Lia List ZArith NArith Bool Reals Lra Psatz.
From Verif Require Import Prelude Scalar Spec SpecSpline Sums Order Coord ModelBasis ModelSpline ModelRational
  ModelRound SpecRound ModelIEEE SpecIEEE ProofIndex ProofEval ProofSplit ProofRound ProofRoundEval ProofRoundOps ProofIEEE ProofIEEEEval
  ClaimsU ClaimsD ClaimsRoundOps ClaimsIEEE SpecRoundSplit ProofRoundSplit SpecIEEESplit ModelIEEESplit ProofIEEESplit.
Import ListNotations.
Local Open Scope R_scope.

Lemma c117_splits : forall F rnd d (s : spline (point R d)) planes k, reasonable F -> nearest_on_grid F rnd ->
  wf s -> (k < length (degrees s))%nat -> machine_points F s -> machine_planes F planes ->
  exists parts cuts, SplitAtPositions_ieee F rnd (fin_spline s) (map Fin planes) k = Ok (map fin_spline parts) /\
    length parts = S (length planes) /\ machine_cuts_near F planes cuts /\
    forall i, (i <= length planes)%nat -> wf (nth i parts s) /\ degrees (nth i parts s) = degrees s /\ machine_points F (nth i parts s) /\
      forall c B, (c < d)%nat -> coord_bound s c B -> forall xs, length xs = length (degrees s) -> in_unit_box xs ->
        Rabs (coord d (value_at (nth i parts s) xs) c - coord d (value_at s (in_part cuts k i xs)) c) <=
          part_error F (nth k (degrees s) 0%nat) (length planes) i B.
Proof.
  intros F rnd d s planes k HF HR W Hk HM HP.
  destruct (ieee_splits F HF rnd HR (ov := VOps_point R d) (ow := VOps_point fl d (o := SOps_ieee F rnd)) fin_spline (machine_points F)
    (fun pr => exists c, (c < d)%nat /\ pr = (fun q => coord d q c))) with (s := s) (planes := planes) (k := k) as (parts & cuts & E & L & HC & K); auto.
  - intros pr (c & Hc & ->). split; hom.
  - intros s' x k' Hw Hk' Gx Hx Hm.
    destruct (c90_split F rnd d s' x k' HF HR Hw Hk' Gx Hx Hm) as (l & r & l0 & r0 & E & E0 & W1 & W2 & D1 & D2 & M1 & M2 & K).
    exists l, r, l0, r0. split; [exact E|]. do 7 (split; [assumption|]). intros pr B (c & Hc & ->) HB. exact (K c B Hc HB).
  - exists parts, cuts. split; [exact E|]. split; [exact L|]. split; [exact HC|]. intros i Hi. destruct (K i Hi) as (A1 & A2 & A3 & A4).
    do 3 (split; [assumption|]). intros c B Hc HB. apply (A4 _ B (ex_intro _ c (conj Hc eq_refl)) HB).
Qed.
Lemma c117_splits_scalar : forall F rnd (s : spline R) planes k, reasonable F -> nearest_on_grid F rnd ->
  wf s -> (k < length (degrees s))%nat -> machine_coeffs F s -> machine_planes F planes ->
  exists parts cuts, SplitAtPositions_ieee_s F rnd (fin_spline_s s) (map Fin planes) k = Ok (map fin_spline_s parts) /\
    length parts = S (length planes) /\ machine_cuts_near F planes cuts /\
    forall i, (i <= length planes)%nat -> wf (nth i parts s) /\ degrees (nth i parts s) = degrees s /\ machine_coeffs F (nth i parts s) /\
      forall B, coeff_bound s B -> forall xs, length xs = length (degrees s) -> in_unit_box xs ->
        Rabs (value_at (nth i parts s) xs - value_at s (in_part cuts k i xs)) <=
          part_error F (nth k (degrees s) 0%nat) (length planes) i B.
Proof.
  intros F rnd s planes k HF HR W Hk HM HP.
  destruct (ieee_splits F HF rnd HR (V := R) (ov := VOps_scalar R (o := SOps_R)) (ow := VOps_scalar fl (o := SOps_ieee F rnd)) fin_spline_s (machine_coeffs F)
    (fun pr => pr = (fun q => q))) with (s := s) (planes := planes) (k := k) as (parts & cuts & E & L & HC & K); auto.
  - intros pr ->. split; reflexivity.
  - intros s' x k' Hw Hk' Gx Hx Hm.
    destruct (split_ieee F rnd HF HR (V := R) (ovr := Vs rnd) (ov := VOps_scalar R (o := SOps_R)) (ow := VOps_scalar fl (o := SOps_ieee F rnd)) Fin (machine F) (fun q => q)
      (step_fl F HF rnd HR) eq_refl (fun _ _ => eq_refl) (fun _ _ => eq_refl) (fun _ _ => eq_refl) (fun _ _ => eq_refl) eq_refl
      s' x k' Hw Hm Hk' Gx Hx) as (l & r & l0 & r0 & E & E0 & W1 & W2 & D1 & D2 & M1 & M2 & K).
    exists l, r, l0, r0. split; [exact E|]. do 7 (split; [assumption|]). intros pr B -> HB. exact (K B (below_coeff s' B Hw HB)).
  - exists parts, cuts. split; [exact E|]. split; [exact L|]. split; [exact HC|]. intros i Hi. destruct (K i Hi) as (A1 & A2 & A3 & A4).
    do 3 (split; [assumption|]). intros B HB. apply (A4 _ B eq_refl HB).
Qed.

(** At the planes themselves. *)
Lemma machine_cuts_planes F planes cuts i x : reasonable F -> machine_planes F planes -> machine_cuts_near F planes cuts -> 0 <= x <= 1 -> (i <= length planes)%nat ->
  Rabs (cut_from cuts i + (cut_to cuts i - cut_from cuts i) * x - (cut_from planes i + (cut_to planes i - cut_from planes i) * x)) <=
    gamma (prec F) 4 + INR (length planes) * tiny F.
Proof.
  intros (Hp & _) (_ & HI) (L & HC) Hx Hi. pose proof (gamma_pos (prec F) Hp 4) as G. pose proof (tiny_pos F) as TP.
  set (K := gamma (prec F) 4 + INR (length planes) * tiny F).
  assert (K0 : 0 <= K) by (pose proof (pos_INR (length planes)); unfold K; nra).
  assert (H : forall j, (j < length planes)%nat -> Rabs (nth j cuts 0 - nth j planes 0) <= K).
  { intros j Hj. destruct (HC j Hj) as (_ & C & _). eapply Rle_trans; [exact C|]. destruct (HI j Hj) as (A & _). destruct (HI 0%nat ltac:(lia)) as (A0 & _).
    assert (0 < / 2 ^ prec F) by (apply Rinv_0_lt_compat, pow_lt; lra). unfold K. apply Rplus_le_compat.
    - rewrite <- (Rmult_1_r (gamma (prec F) 4)) at 2. apply Rmult_le_compat_l; lra.
    - apply Rmult_le_compat_r; [lra|]. apply le_INR. lia. }
  assert (A : Rabs (cut_from cuts i - cut_from planes i) <= K).
  { unfold cut_from. destruct i as [|i]; cbn [nth]; [rewrite Rminus_eq_0, Rabs_R0; auto|apply H; lia]. }
  assert (B : Rabs (cut_to cuts i - cut_to planes i) <= K).
  { unfold cut_to. destruct (Nat.eq_dec i (length planes)) as [->|].
    - rewrite <- L at 1. rewrite !app_nth2, !Nat.sub_diag by lia. cbn [nth]. rewrite Rminus_eq_0, Rabs_R0; auto.
    - rewrite !app_nth1 by lia. apply H; lia. }
  set (a := cut_from cuts i) in *. set (a' := cut_from planes i) in *. set (b := cut_to cuts i) in *. set (b' := cut_to planes i) in *.
  replace (a + (b - a) * x - (a' + (b' - a') * x)) with ((1 - x) * (a - a') + x * (b - b')) by ring.
  eapply Rle_trans; [apply Rabs_triang|]. rewrite !Rabs_mult, (Rabs_right (1 - x)), (Rabs_right x) by lra. clearbody K. nra.
Qed.
Lemma machine_at_planes {V} {ov : VOps R V} {M : VMod R V} F (s part : spline V) pr B planes cuts k i xs e : reasonable F ->
  (forall a b, pr (vadd (VOps := ov) a b) = pr a + pr b) -> (forall x a, pr (vscale (VOps := ov) x a) = x * pr a) ->
  length xs = length (degrees s) -> in_unit_box xs -> (k < length (degrees s))%nat ->
  (forall i, (i < n_coeffs (degrees s))%nat -> Rabs (pr (nth i (control_points s) v0)) <= B) ->
  machine_planes F planes -> machine_cuts_near F planes cuts -> (i <= length planes)%nat ->
  Rabs (pr (value_at part xs) - pr (value_at s (in_part cuts k i xs))) <= e ->
  Rabs (pr (value_at part xs) - pr (value_at s (in_part planes k i xs))) <= e + 2 * INR (nth k (degrees s) 0%nat) * B * (gamma (prec F) 4 + INR (length planes) * tiny F).
Proof.
  intros HF P1 P2 HX HU Hk HB HI HC Hi H. pose proof HC as (L & HC'). pose proof HI as (_ & HI').
  assert (Up : 0 < / 2 ^ prec F) by (apply Rinv_0_lt_compat, pow_lt; lra).
  assert (Hx : 0 <= nth k xs 0 <= 1).
  { unfold in_unit_box in HU. rewrite Forall_forall in HU. apply HU, nth_In. lia. }
  assert (B0 : 0 <= B) by (eapply Rle_trans; [apply Rabs_pos|apply (HB 0%nat); apply n_coeffs_pos]).
  pose proof (value_move s pr B xs k (cut_from planes i + (cut_to planes i - cut_from planes i) * nth k xs 0) (cut_from cuts i + (cut_to cuts i - cut_from cuts i) * nth k xs 0) P1 P2 HX HU Hk
    ltac:(apply in_part_unit; auto; intros j Hj; destruct (HI' j Hj); lra)
    ltac:(apply in_part_unit; auto; [intros j Hj; apply (HC' j); lia|lia]) HB) as K.
  pose proof (machine_cuts_planes F planes cuts i (nth k xs 0) HF HI HC Hx Hi) as D. fold (in_part cuts k i xs) in K. fold (in_part planes k i xs) in K.
  set (q := 2 * INR (nth k (degrees s) 0%nat) * B) in *.
  assert (Q : 0 <= q) by (unfold q; pose proof (pos_INR (nth k (degrees s) 0%nat)); apply Rmult_le_pos; lra).
  assert (K2 := Rmult_le_compat_l q _ _ Q D).
  set (X := pr (value_at part xs)) in *. set (Y := pr (value_at s (in_part cuts k i xs))) in *. set (Z := pr (value_at s (in_part planes k i xs))) in *.
  replace (X - Z) with ((X - Y) + (Y - Z)) by ring. eapply Rle_trans; [apply Rabs_triang|]. lra.
Qed.
Lemma c117_planes : forall F rnd d (s : spline (point R d)) planes k, reasonable F -> nearest_on_grid F rnd ->
  wf s -> (k < length (degrees s))%nat -> machine_points F s -> machine_planes F planes ->
  exists parts, SplitAtPositions_ieee F rnd (fin_spline s) (map Fin planes) k = Ok (map fin_spline parts) /\ length parts = S (length planes) /\
    forall i c B xs, (i <= length planes)%nat -> (c < d)%nat -> coord_bound s c B -> length xs = length (degrees s) -> in_unit_box xs ->
      Rabs (coord d (value_at (nth i parts s) xs) c - coord d (value_at s (in_part planes k i xs)) c) <=
        part_error F (nth k (degrees s) 0%nat) (length planes) i B +
        2 * INR (nth k (degrees s) 0%nat) * B * (gamma (prec F) 4 + INR (length planes) * tiny F).
Proof.
  intros F rnd d s planes k HF HR W Hk HM HP. destruct (c117_splits F rnd d s planes k HF HR W Hk HM HP) as (parts & cuts & E & L & HC & K).
  exists parts. split; [exact E|]. split; [exact L|]. intros i c B xs Hi Hc HB HX HU.
  apply (machine_at_planes (ov := VOps_point R d) F s (nth i parts s) (fun q => coord d q c) B planes cuts); auto; [hom|hom|]. apply (K i Hi); auto.
Qed.
Lemma c117_planes_scalar : forall F rnd (s : spline R) planes k, reasonable F -> nearest_on_grid F rnd ->
  wf s -> (k < length (degrees s))%nat -> machine_coeffs F s -> machine_planes F planes ->
  exists parts, SplitAtPositions_ieee_s F rnd (fin_spline_s s) (map Fin planes) k = Ok (map fin_spline_s parts) /\ length parts = S (length planes) /\
    forall i B xs, (i <= length planes)%nat -> coeff_bound s B -> length xs = length (degrees s) -> in_unit_box xs ->
      Rabs (value_at (nth i parts s) xs - value_at s (in_part planes k i xs)) <=
        part_error F (nth k (degrees s) 0%nat) (length planes) i B +
        2 * INR (nth k (degrees s) 0%nat) * B * (gamma (prec F) 4 + INR (length planes) * tiny F).
Proof.
  intros F rnd s planes k HF HR W Hk HM HP. destruct (c117_splits_scalar F rnd s planes k HF HR W Hk HM HP) as (parts & cuts & E & L & HC & K).
  exists parts. split; [exact E|]. split; [exact L|]. intros i B xs Hi HB HX HU.
  apply (machine_at_planes (V := R) (ov := VOps_scalar R (o := SOps_R)) F s (nth i parts s) (fun q => q) B planes cuts); auto. apply (K i Hi); auto.
Qed.
