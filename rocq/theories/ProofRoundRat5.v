(** Compositions with a rational inner spline in rounded arithmetic against the exact ones. *)
From Coq Require Import Arith Lia List ZArith NArith Bool Reals Lra Psatz.
From Verif Require Import Prelude Scalar Spec SpecSpline SpecRational Sums Order Coord ModelBasis ModelPoint ModelSpline ModelRational
  ModelRound ModelRoundMul SpecRound SpecRoundMul ProofIndex ProofBasis ProofEval ProofElevate ProofUnique ProofArith ProofSplit ProofMul ProofCompose ProofHull ProofCube
  ProofRational ProofRational2 ProofRational3 ProofCasteljau ProofRaw ProofRound ProofRoundEval ProofRoundOps ProofRawMul ProofRoundMul ProofRoundCompose
  ClaimsB ClaimsE ClaimsH ClaimsU ClaimsX ClaimsRoundOps ClaimsRoundMul ModelRoundRat SpecRoundRat ProofRoundRat ProofRoundRat2 ProofRoundRat3 SpecUnit ModelUnit ProofUnit3 ClaimsUnit ProofRoundRat4.
Import ListNotations.
Local Open Scope R_scope.

Section Fin.
Context (p : nat) (rnd : R -> R) (Hp : (0 < p)%nat) (HR : nearest p rnd).
Let u := / 2 ^ p.
Notation ornd := (SOps_rnd rnd).
Notation Vs := (VOps_scalar R (o := ornd)).
Notation VR := (VOps_scalar R (o := SOps_R)).
Context (D : list nat) (dgs : list nat).
Notation S0 := (list_sum dgs).
Notation K := (compose_roundings dgs D).
Notation n := (n_coeffs dgs).
Lemma term_le m (f : nat -> R) : (forall i, (i < m)%nat -> 0 <= f i) -> forall i, (i < m)%nat -> f i <= ssum (T := R) m f.
Proof using.
  clear. assert (P : forall m, (forall i, (i < m)%nat -> 0 <= f i) -> 0 <= ssum (T := R) m f).
  { induction m0; intros H; cbn [ssum sadd s0 SOps_R]; [lra|]. pose proof (H m0 ltac:(lia)). pose proof (IHm0 (fun i Hx => H i ltac:(lia))). lra. }
  induction m; intros H i Hx; [lia|]. cbn [ssum sadd SOps_R]. destruct (Nat.eq_dec i m) as [->|Ne].
  - pose proof (P m (fun i Hx => H i ltac:(lia))). lra.
  - pose proof (IHm (fun i Hx => H i ltac:(lia)) i ltac:(lia)). pose proof (H m ltac:(lia)). lra.
Qed.

(** ** The loop over the control points of a rational outer spline *)
Definition scaled_by {o : SOps R} (c : R) (s : spline R) : spline R := with_cps s (map (fun x => smul c x) (control_points s)).
Lemma scale_list {o : SOps R} {V} (outer : rspline R V) (T : nat -> spline R) w : rwf outer -> rdegrees outer = dgs ->
  (forall i, (i < n)%nat -> wf (T i) /\ degrees (T i) = degrees w) ->
  exists ts, scale_sensitivities (o := o) outer (map T (seq 0 n)) w = Ok ts /\ length ts = n /\
    forall i, (i < n)%nat -> nth_error ts i = Some (mkR (scaled_by (nth i (control_points (weight_function outer)) 0) (T i)) w).
Proof using.
  intros (_ & (_ & _ & _ & Lw) & Dw) Do HT. unfold rdegrees in Do. rewrite Dw, Do in Lw. unfold scale_sensitivities. rewrite map_length, seq_length.
  edestruct (push_loop (fun i => do n <- get (map T (seq 0 n)) i; do c <- get (control_points (weight_function outer)) i; do u <- spline_scale (ov := VOps_scalar R (o := o)) n c; R_mk u w) n
    (fun i t => t = mkR (scaled_by (nth i (control_points (weight_function outer)) 0) (T i)) w)) as (out & Eo & L & N).
  - intros i Hx. destruct (HT i Hx) as (Wt & Dt). unfold get at 1. rewrite (nth_error_nth' (map T (seq 0 n)) (mk [] [])) by (rewrite map_length, seq_length; exact Hx). rewrite nth_map_seq by auto. cbn [bind].
    rewrite (get_ok 0) by (rewrite Lw; exact Hx). cbn [bind]. unfold spline_scale, scale_assign. rewrite map_points_ok by auto. cbn [bind].
    eexists. split; [apply ProofRational.R_mk_ok; symmetry; exact Dt|reflexivity].
  - exists out. split; [|split; auto]; [|intros i Hx; destruct (N i Hx) as (t & -> & ->); reflexivity]. rewrite <- Eo. apply for_up_ext. intros i st _. destruct (get _ i); auto.
    cbn [bind]. destruct (get _ i); auto. cbn [bind]. destruct (spline_scale _ _); auto.
Qed.

Lemma scaled_sens {V} (outer : rspline R V) (T' T0 : nat -> spline R) (w' w0 : spline R) : rwf outer -> rdegrees outer = dgs -> positive (weight_function outer) ->
  (forall i, (i < n)%nat -> rel p D (sensitivity_roundings dgs D) S0 (T' i) (T0 i)) ->
  wf w' -> wf w0 -> degrees w' = map (Nat.mul S0) D -> degrees w0 = map (Nat.mul S0) D -> wclose p K w' w0 ->
  (forall j, (j < n_coeffs (map (Nat.mul S0) D))%nat -> nth j (control_points w0) 0 = vsum (V := R) n (fun i => nth j (control_points (T0 i)) 0 * nth i (control_points (weight_function outer)) 0)) ->
  exists ts ts0, scale_sensitivities (o := ornd) outer (map T' (seq 0 n)) w' = Ok ts /\ scale_sensitivities outer (map T0 (seq 0 n)) w0 = Ok ts0 /\ length ts = n /\ length ts0 = n /\
    forall i, (i < n)%nat -> exists t t0, nth_error ts i = Some t /\ nth_error ts0 i = Some t0 /\ rwf t /\ rwf t0 /\ rdegrees t = map (Nat.mul S0) D /\ rdegrees t0 = rdegrees t /\
      (forall j, 0 <= nth j (control_points (weighted_spline t)) 0) /\
      (gamma p K < 1 -> positive (weight_function t) /\ approximates p (ov := VR) K t D (fun xs => rvalue (ov := VR) t0 xs) (fun x => x) 1).
Proof using Hp HR.
  intros Hro Do HP HT Y1 Y2 G1 G2 CW Cq.
  set (t i j := nth j (control_points (T0 i)) 0) in *. set (c i := nth i (control_points (weight_function outer)) 0) in *.
  assert (Cp : forall i, (i < n)%nat -> 0 < c i). { intros i Hx. apply (HP i). destruct Hro as (_ & _ & Dw). rewrite Dw. unfold rdegrees in Do. rewrite Do. exact Hx. }
  assert (T0p : forall i j, (i < n)%nat -> 0 <= t i j). { intros i j Hx. destruct (HT i Hx) as ((_ & _ & _ & C) & _). apply (proj1 (C j)). }
  assert (TL : forall i j, (i < n)%nat -> (j < n_coeffs (map (Nat.mul S0) D))%nat -> c i * t i j <= nth j (control_points w0) 0).
  { intros i j Hx Hj. rewrite Cq by exact Hj.
    rewrite (vsum_ext (ov := VR) n _ (fun i => c i * t i j)).
    - apply (term_le n (fun i => c i * t i j)); auto. intros m Hm. apply Rmult_le_pos; [apply Rlt_le|]; auto.
    - intros m Hm. cbn beta. apply Rmult_comm. }
  assert (Dd : forall i, (i < n)%nat -> degrees (T' i) = map (Nat.mul S0) D /\ degrees (T0 i) = map (Nat.mul S0) D /\ wf (T' i) /\ wf (T0 i)).
  { intros i Hx. destruct (HT i Hx) as ((A1 & A2 & A3 & _) & A4). repeat split; auto; try congruence; try apply A1; apply A2. }
  destruct (scale_list (o := ornd) outer T' w' Hro Do) as (ts & Et & Lt & Nt); [intros i Hx; rewrite G1; split; apply Dd; auto|].
  destruct (scale_list (o := SOps_R) outer T0 w0 Hro Do) as (ts0 & Et0 & Lt0 & Nt0); [intros i Hx; rewrite G2; split; apply Dd; auto|].
  exists ts, ts0. do 2 (split; [assumption|]).
  do 2 (split; [assumption|]). intros i Hx. destruct (Dd i Hx) as (d1 & d2 & w1 & w2). specialize (Nt i Hx). specialize (Nt0 i Hx). fold (c i) in Nt, Nt0.
  assert (Wt : wf (scaled_by (o := ornd) (c i) (T' i))) by (apply wf_map_cps; auto). assert (Wt0 : wf (scaled_by (o := SOps_R) (c i) (T0 i))) by (apply wf_map_cps; auto).
  assert (Srel : forall j, Sr' u (sensitivity_roundings dgs D + 1) (nth j (control_points (scaled_by (o := ornd) (c i) (T' i))) 0) (c i * t i j)).
  { intros j. assert (Z : rnd (c i * 0) = 0) by (rewrite Rmult_0_r; apply (nearest_exact p); auto; apply repr_0). cbn [scaled_by with_cps control_points smul SOps_rnd].
    rewrite (nth_map_R (fun x => rnd (c i * x))) by exact Z. eapply (Sr'_le p rnd Hp HR); [|apply (Sr'_mul p rnd Hp HR) with (j := 0%nat) (k := sensitivity_roundings dgs D)]; [lia| |].
    - split; [apply Rlt_le; auto|]. apply Sr_exact.
    - destruct (HT i Hx) as ((_ & _ & _ & C) & _). apply C. }
  assert (Cx : forall j, nth j (control_points (scaled_by (o := SOps_R) (c i) (T0 i))) 0 = c i * t i j).
  { intros j. cbn [scaled_by with_cps control_points smul SOps_R]. rewrite (nth_map_R (fun x => c i * x)) by ring. reflexivity. }
  set (a' := scaled_by (o := ornd) (c i) (T' i)) in *. set (a := scaled_by (o := SOps_R) (c i) (T0 i)) in *.
  assert (da : degrees a' = map (Nat.mul S0) D) by exact d1. assert (da0 : degrees a = map (Nat.mul S0) D) by exact d2. clearbody a a'.
  exists (mkR a' w'), (mkR a w0). split; [exact Nt|]. split; [exact Nt0|].
  assert (Ra : rwf (mkR a' w')) by (split; [|split]; cbn [weighted_spline weight_function]; auto; congruence). split; [exact Ra|].
  split; [split; [|split]; cbn [weighted_spline weight_function]; auto; congruence|].
  split; [exact da|]. split; [unfold rdegrees; cbn [weighted_spline]; congruence|].
  assert (Hu : 0 <= u) by apply unit_pos. assert (Hu1 : u < 1) by (apply unit_lt_1; auto).
  split. { intros j. cbn [weighted_spline]. destruct (Srel j) as (A & (B & _)). eapply Rle_trans; [|exact B]. apply Rmult_le_pos; [apply pow_le; lra|exact A]. }
  intros HG. set (DD := map (Nat.mul S0) D) in *. assert (LD : length DD = length D) by (unfold DD; apply map_length).
  destruct (conclude p rnd Hp HR (ovr := Vs) (ov := VR) K (mkR a' w') a w0 DD (fun xs => rvalue (ov := VR) (mkR a w0) xs)) as (A1 & A2); auto; try congruence.
  split; [exact A1|]. destruct (A2 (fun x => x) 1 (id_hom rnd)) as (Z1 & Z2).
  { intros j Hj. cbn [weighted_spline]. rewrite G2 in Hj. rewrite Rmult_1_l. change (@v0 R R VR) with 0. rewrite Cx. apply (Er_weak _ _ _ (c i * t i j)); [apply (u_pow u Hu)|apply TL; auto|].
    unfold compose_roundings. pose proof (n_coeffs_pos dgs). eapply Er_le; [|eapply Sr_Er; [exact Hu|exact Hu1|apply (proj1 (Srel j))|apply (proj2 (Srel j))]]. apply Rle_pow; [pose proof (unit_pos p); lra|lia]. }
  split; [exact Z1|]. intros xs HX. apply Z2. rewrite HX. exact (eq_sym LD).
Qed.
End Fin.

Section Gen.
Context (p : nat) (rnd : R -> R) (Hp : (0 < p)%nat) (HR : nearest p rnd).
Let u := / 2 ^ p.
Notation ornd := (SOps_rnd rnd).
Notation Vs := (VOps_scalar R (o := ornd)).
Notation VR := (VOps_scalar R (o := SOps_R)).
Context (MAXB : nat) (HB : (MAXB <= 68)%nat).
Context (d : nat) (inner : rspline R (point R d)) (Hi : rwf inner) (HC : in_cube_weighted inner).
Context (Hsz : (Z.of_nat (n_coeffs (rdegrees inner)) < 2 ^ 31)%Z).
Context (fuel : nat) (Hfuel : (list_max (rdegrees inner) + 1 < fuel)%nat).
Notation D := (rdegrees inner).
Notation win := (weight_function inner).
Context (dgs : list nat) (Hne : dgs <> []) (Hdim : length dgs = d).
Context (HF : Forall (fun q => list_sum dgs * q < MAXB)%nat D).
Context (HM : Forall (fun q => q < MAXB)%nat dgs).
Notation S0 := (list_sum dgs).
Notation K := (compose_roundings dgs D).
Notation n := (n_coeffs dgs).

Lemma ones_value xs : length xs = length dgs -> value_at (mk dgs (repeat 1 n) : spline R) xs = 1.
Proof using.
  intros HX. change (value_at (mk dgs (repeat 1 n) : spline R) xs = @s1 R SOps_R). rewrite <- (bezier_const' (T := R) dgs xs HX). unfold value_at. apply (bezier_ext (V := R)).
  intros i Hx. cbn [mk control_points]. change (@v0 R R VR) with 0. change (@s1 R SOps_R) with 1. rewrite (nth_indep (repeat 1 n) 0 1) by (rewrite repeat_length; exact Hx). apply nth_repeat.
Qed.
Lemma ones_positive : positive (mk dgs (repeat 1 n) : spline R).
Proof using. intros i Hx. cbn [mk control_points degrees] in *. rewrite (nth_indep (repeat 1 n) 0 1) by (rewrite repeat_length; exact Hx). rewrite nth_repeat. lra. Qed.

(** ** Rational outer spline *)
Lemma g_comp_rr {V} {ovr ov : VOps R V} {M : VMod R V} (v0_r : v0 (VOps := ovr) = v0 (VOps := ov)) (outer : rspline R V) : rwf outer -> rdegrees outer = dgs -> positive (weight_function outer) ->
  exists c, Compose_RR (o := ornd) (ov := ovr) MAXB fuel outer inner = Ok c /\ rwf c /\ rdegrees c = map (Nat.mul S0) D /\
    (gamma p K < 1 -> positive (weight_function c) /\
     forall pr B, hom_to (o3 := ov) (o3r := ovr) rnd pr -> bounded pr B (weighted_spline outer) (weight_function outer) ->
       approximates p (ov := ov) K c D (fun xs => rvalue (ov := ov) outer (plist d (rvalue inner xs))) pr B).
Proof using Hp HR HB Hi HC Hsz Hfuel Hne Hdim HF HM.
  destruct outer as [ou ow]. unfold rdegrees at 1. cbn [weighted_spline weight_function]. intros (Wu & Ww & Dw) Do HP. cbn [weighted_spline weight_function] in Wu, Ww, Dw.
  rewrite Do in Dw.
  assert (exists wc, ow = mk dgs wc) as (wc & ->) by (exists (control_points ow); rewrite <- Dw; apply wf_eq_mk; auto).
  assert (Lwc : length wc = n) by (destruct Ww as (_ & _ & _ & L); exact L).
  destruct (numerator_maj p rnd Hp HR MAXB HB d inner Hi HC Hsz fuel Hfuel dgs Hne Hdim HF HM wc Lwc v0_r ou Wu Do) as (n' & n0 & w & E & E0 & Ew & (X1 & X2 & X3) & (D1 & D2 & D3) & HV & HVw & Pos & HN).
  destruct (numerator_maj p rnd Hp HR MAXB HB d inner Hi HC Hsz fuel Hfuel dgs Hne Hdim HF HM wc Lwc (V := R) (ovr := Vs) (ov := VR) eq_refl (mk dgs wc) Ww eq_refl) as (w' & w0 & w1 & F & F0 & Fw & (Y1 & Y2 & Y3) & (G1 & G2 & G3) & _ & _ & _ & HNw).
  assert (EE : Ok w0 = Ok w) by exact (eq_trans (eq_sym F0) Ew). injection EE as ->. 
  assert (EE : Ok w1 = Ok w) by exact (eq_trans (eq_sym Fw) Ew). injection EE as ->.
  pose proof (wclose_of _ _ _ _ _ (Pos HP) (HNw (fun x => x) 1 (id_hom rnd) HP (pos_bounded _ HP)) (fun _ => eq_refl)) as CW.
  assert (Ra : rwf (mkR n' w')) by (split; [|split]; cbn [weighted_spline weight_function]; auto; congruence).
  exists (mkR n' w'). split.
  { unfold Compose_RR. cbn [weighted_spline weight_function]. rewrite E. cbn [bind]. rewrite F. cbn [bind]. apply ProofRational.R_mk_ok; congruence. }
  split; [exact Ra|]. split; [exact D1|]. intros HG.
  set (DD := map (Nat.mul S0) D) in *. assert (LD : length DD = length D) by (unfold DD; apply map_length).
  destruct (conclude p rnd Hp HR (ovr := ovr) (ov := ov) K (mkR n' w') n0 w DD (fun xs => rvalue (ov := ov) (mkR ou (mk dgs wc)) (plist d (rvalue inner xs)))) as (A1 & A2); auto; try congruence.
  { intros xs HX HU PW. rewrite LD in HX. pose proof (win_domain p rnd Hp HR d inner Hi HC xs HX HU) as HD. rewrite (HVw xs HD) in *. rewrite (HV xs HD).
    set (q := plist d (rvalue inner xs)) in *. unfold rvalue. cbn [weighted_spline weight_function]. set (a := spow (value_at win xs) S0) in *. rewrite <- vm_mul. f_equal. cbn [smul sdiv s1 SOps_R].
    assert (a <> 0) by (intros Z; rewrite Z, Rmult_0_l in PW; lra). assert (value_at (mk dgs wc) q <> 0) by (intros Z; rewrite Z, Rmult_0_r in PW; lra). field; auto. }
  split; [exact A1|]. intros pr B HH HBd. destruct (A2 pr B HH (HN pr B HH HP HBd)) as (Z1 & Z2). split; [exact Z1|]. intros xs HX. apply Z2. rewrite HX. exact (eq_sym LD).
Qed.

(** ** Polynomial outer spline *)
Lemma ones_den {V} (outer : spline V) w w' : wf w -> wf w' -> degrees w = map (Nat.mul S0) D -> degrees w' = map (Nat.mul S0) D ->
  (forall xs, rdomain inner xs -> value_at w xs = spow (value_at win xs) S0 * value_at (mk dgs (repeat 1 n)) (plist d (rvalue inner xs))) ->
  (forall xs, length xs = length D -> value_at w' xs = spow (value_at win xs) S0) ->
  forall j, (j < n_coeffs (map (Nat.mul S0) D))%nat -> nth j (control_points w) 0 = nth j (control_points w') 0.
Proof using Hp HR Hi HC Hdim.
  intros W W' Dw Dw' H H' j Hj. apply unique_box; auto; [congruence| |rewrite Dw; exact Hj]. intros xs HX HU. rewrite Dw, map_length in HX. rewrite H' by auto. rewrite H by (apply (win_domain p rnd); auto).
  rewrite ones_value by (rewrite plist_length; auto). apply Rmult_1_r.
Qed.
Lemma g_comp_pr {V} {ovr ov : VOps R V} {M : VMod R V} (v0_r : v0 (VOps := ovr) = v0 (VOps := ov)) (outer : spline V) : wf outer -> degrees outer = dgs ->
  exists c, Compose_PR (o := ornd) (ov := ovr) MAXB fuel outer inner = Ok c /\ rwf c /\ rdegrees c = map (Nat.mul S0) D /\
    (gamma p K < 1 -> positive (weight_function c) /\
     forall pr B, hom_to (o3 := ov) (o3r := ovr) rnd pr -> (forall i, (i < n)%nat -> Rabs (pr (nth i (control_points outer) v0)) <= B) ->
       approximates p (ov := ov) K c D (fun xs => value_at (ov := ov) outer (plist d (rvalue inner xs))) pr B).
Proof using Hp HR HB Hi HC Hsz Hfuel Hne Hdim HF HM.
  intros Wu Do.
  destruct (numerator_maj p rnd Hp HR MAXB HB d inner Hi HC Hsz fuel Hfuel dgs Hne Hdim HF HM (repeat 1 n) (repeat_length _ _) v0_r outer Wu Do) as (n' & n0 & w & E & E0 & Ew & (X1 & X2 & X3) & (D1 & D2 & D3) & HV & HVw & Pos & HN).
  destruct (denominator p rnd Hp HR MAXB HB d inner Hi HC Hsz fuel Hfuel dgs Hdim HF outer Wu Do) as (w' & w0 & F & F0 & Y1 & Y2 & G1 & G2 & CW & HVd).
  assert (EC : forall j, (j < n_coeffs (map (Nat.mul S0) D))%nat -> nth j (control_points w) 0 = nth j (control_points w0) 0) by (apply (ones_den outer); auto; congruence).
  assert (Ra : rwf (mkR n' w')) by (split; [|split]; cbn [weighted_spline weight_function]; auto; congruence).
  exists (mkR n' w'). split.
  { unfold Compose_PR. pose proof (c104_rational_fits p rnd d inner Hp HR Hi HC) as FT. unfold R_FitsIntoUnitCube_rnd in FT. rewrite FT. cbn [bind negb]. rewrite E. cbn [bind]. rewrite F. cbn [bind]. apply ProofRational.R_mk_ok; congruence. }
  split; [exact Ra|]. split; [exact D1|]. intros HG.
  set (DD := map (Nat.mul S0) D) in *. assert (LD : length DD = length D) by (unfold DD; apply map_length).
  destruct (conclude p rnd Hp HR (ovr := ovr) (ov := ov) K (mkR n' w') n0 w0 DD (fun xs => value_at (ov := ov) outer (plist d (rvalue inner xs)))) as (A1 & A2); auto; try congruence.
  { intros xs HX HU PW. rewrite LD in HX. pose proof (win_domain p rnd Hp HR d inner Hi HC xs HX HU) as HD. rewrite (HVd xs HX) in *. rewrite (HV xs HD). 
    set (a := spow (value_at win xs) S0) in *. rewrite <- vm_mul. cbn [smul SOps_R]. replace (1 / a * a) with (@s1 R SOps_R) by (cbn [s1 SOps_R]; field; lra). apply vm_1. }
  split; [exact A1|]. intros pr B HH HBd. destruct (A2 pr B HH) as (Z1 & Z2).
  { intros j Hj. cbn [weighted_spline]. rewrite G2 in Hj. rewrite <- EC by auto. apply HN; auto; [apply ones_positive| |congruence]. intros i Hx. cbn [mk degrees control_points] in *.
    rewrite (nth_indep (repeat 1 n) 0 1) by (rewrite repeat_length; exact Hx). rewrite nth_repeat, Rmult_1_r. auto. }
  split; [exact Z1|]. intros xs HX. apply Z2. rewrite HX. exact (eq_sym LD).
Qed.

(** ** Sensitivities of the composition with a polynomial outer spline *)
Lemma fits_exact : R_FitsIntoUnitCube (o := SOps_R) inner = Ok true.
Proof using Hi HC.
  clear - Hi HC. destruct (R_Fits_ok (o := SOps_R) inner Hi) as (b & E & Hb).
  { intros i Hx. destruct (HC i Hx) as (P & _). unfold rw. change (nth i (control_points win) 0 <> 0). lra. }
  rewrite E. f_equal. apply Hb. intros i k Hx Hk. destruct (HC i Hx) as (P & Q). specialize (Q k Hk). unfold rcp, rw. rewrite coord_scale. change (@s0 R SOps_R) with 0. change (@s1 R SOps_R) with 1. cbn [smul sdiv SOps_R].
  set (a := coord _ _ _) in *. set (w := nth _ _ _) in *.
  assert (0 < / w) by (apply Rinv_0_lt_compat; exact P). split; apply sle_Rle; cbn [s0 s1 SOps_R]; unfold Rdiv; [nra|].
  apply (Rmult_le_reg_r w); [exact P|]. field_simplify; lra.
Qed.
Lemma sens_list {o : SOps R} {V} (outer : spline V) (T : nat -> spline R) w : wf outer -> degrees outer = dgs -> R_FitsIntoUnitCube (o := o) inner = Ok true ->
  ComposeNumeratorSensitivity_R (o := o) MAXB fuel outer inner = Ok (map T (seq 0 n)) -> ComposeDenominator (o := o) MAXB outer inner = Ok w ->
  (forall i, (i < n)%nat -> degrees (T i) = degrees w) ->
  exists ts, ComposeSensitivity_PR (o := o) MAXB fuel outer inner = Ok ts /\ length ts = n /\ forall i, (i < n)%nat -> nth_error ts i = Some (mkR (T i) w).
Proof using.
  intros (_ & Hn & _) Do FT E F HD. unfold ComposeSensitivity_PR. rewrite FT. cbn [bind negb]. rewrite E. cbn [bind]. rewrite F. cbn [bind]. rewrite Hn, Do.
  edestruct (push_loop (fun i => do u <- get (map T (seq 0 n)) i; R_mk u w) n (fun i t => t = mkR (T i) w)) as (out & Eo & L & N).
  - intros i Hx. unfold get. rewrite (nth_error_nth' (map T (seq 0 n)) (mk [] [])) by (rewrite map_length, seq_length; exact Hx). rewrite nth_map_seq by auto. cbn [bind]. eexists. split; [apply ProofRational.R_mk_ok; symmetry; apply HD; exact Hx|reflexivity].
  - exists out. split; [|split; auto]; [|intros i Hx; destruct (N i Hx) as (t & -> & ->); reflexivity]. rewrite <- Eo. apply for_up_ext. intros i st _. destruct (get _ i); auto.
Qed.
Lemma g_sens_pr {V} (outer : spline V) : wf outer -> degrees outer = dgs ->
  exists ts ts0, ComposeSensitivity_PR (o := ornd) MAXB fuel outer inner = Ok ts /\ ComposeSensitivity_PR MAXB fuel outer inner = Ok ts0 /\ length ts = n /\ length ts0 = n /\
    forall i, (i < n)%nat -> exists t t0, nth_error ts i = Some t /\ nth_error ts0 i = Some t0 /\ rwf t /\ rwf t0 /\ rdegrees t = map (Nat.mul S0) D /\ rdegrees t0 = rdegrees t /\
      (forall j, 0 <= nth j (control_points (weighted_spline t)) 0) /\
      (gamma p K < 1 -> positive (weight_function t) /\ approximates p (ov := VR) K t D (fun xs => rvalue (ov := VR) t0 xs) (fun x => x) 1).
Proof using Hp HR HB Hi HC Hsz Hfuel Hne Hdim HF HM.
  intros Wu Do.
  assert (HFo : Forall (fun q => list_sum (degrees outer) * q < MAXB)%nat D) by (rewrite Do; exact HF).
  assert (HMo : Forall (fun q => q < MAXB)%nat (degrees outer)) by (rewrite Do; exact HM).
  assert (Hdo : length (degrees outer) = d) by (rewrite Do; exact Hdim).
  set (one := mk dgs (repeat 1 n) : spline R). assert (W1 : wf one) by (apply wf_mk; auto; apply repeat_length).
  destruct (numerators p rnd Hp HR MAXB HB d inner Hi HC fuel Hfuel outer Wu Hdo HFo HMo) as (T' & T0 & HT & ES' & ES & _ & _).
  destruct (numerators p rnd Hp HR MAXB HB d inner Hi HC fuel Hfuel one W1 Hdim HF HM) as (T1' & T1 & _ & _ & ES1 & _ & N1).
  rewrite (sensR_same MAXB d fuel outer one inner Wu W1 (eq_sym Do)), ES in ES1. rewrite Do in HT, ES', ES, ES1. change (degrees one) with dgs in *.
  assert (S1 : forall i, (i < n)%nat -> T1 i = T0 i).
  { intros i Hx. injection ES1 as ES1. rewrite <- (nth_map_seq T1 n i (mk [] [])), <- (nth_map_seq T0 n i (mk [] [])) by auto. rewrite ES1. reflexivity. }
  destruct (N1 VR) as (q & Eq & Wq & Dq & Cq).
  destruct (NumR_ok MAXB HB d inner Hi Hsz fuel Hfuel one W1 Hdim HF HM) as (r1 & E1 & _ & _ & Vq). rewrite Eq in E1. injection E1 as <-. change (degrees one) with dgs in Vq.
  destruct (denominator p rnd Hp HR MAXB HB d inner Hi HC Hsz fuel Hfuel dgs Hdim HF outer Wu Do) as (w' & w0 & F & F0 & Y1 & Y2 & G1 & G2 & CW & HVd).
  pose proof (ones_den outer q w0 Wq Y2 Dq G2 Vq HVd) as EC.
  set (t i j := nth j (control_points (T0 i)) 0) in *.
  assert (T0p : forall i j, (i < n)%nat -> 0 <= t i j). { intros i j Hx. destruct (HT i Hx) as ((_ & _ & _ & C) & _). apply (proj1 (C j)). }
  assert (TL : forall i j, (i < n)%nat -> (j < n_coeffs (map (Nat.mul S0) D))%nat -> t i j <= nth j (control_points w0) 0).
  { intros i j Hx Hj. rewrite <- EC by auto. change (@v0 R R VR) with 0 in Cq. rewrite Cq by (rewrite Dq; exact Hj).
    rewrite (vsum_ext (ov := VR) n _ (fun i => t i j)).
    - exact (term_le n (fun i => t i j) (fun i Hx => T0p i j Hx) i Hx).
    - intros m Hm. rewrite S1 by auto. cbn [one mk control_points]. rewrite (nth_indep (repeat 1 n) 0 1) by (rewrite repeat_length; exact Hm). rewrite nth_repeat. apply Rmult_1_r. }
  assert (Dd : forall i, (i < n)%nat -> degrees (T' i) = map (Nat.mul S0) D /\ degrees (T0 i) = map (Nat.mul S0) D /\ wf (T' i) /\ wf (T0 i)).
  { intros i Hx. destruct (HT i Hx) as ((A1 & A2 & A3 & _) & A4). repeat split; auto; try congruence; try apply A1; apply A2. }
  pose proof (c104_rational_fits p rnd d inner Hp HR Hi HC) as FT. unfold R_FitsIntoUnitCube_rnd in FT.
  destruct (sens_list outer T' w' Wu Do FT ES' F) as (ts & Et & Lt & Nt); [intros i Hx; rewrite G1; apply Dd; auto|].
  assert (FT0 : R_FitsIntoUnitCube (o := SOps_R) inner = Ok true) by exact fits_exact.
  destruct (sens_list outer T0 w0 Wu Do FT0 ES F0) as (ts0 & Et0 & Lt0 & Nt0); [intros i Hx; rewrite G2; apply Dd; auto|].
  exists ts, ts0. do 4 (split; [assumption|]). intros i Hx. destruct (Dd i Hx) as (d1 & d2 & w1 & w2). exists (mkR (T' i) w'), (mkR (T0 i) w0).
  split; [auto|]. split; [auto|]. 
  assert (Ra : rwf (mkR (T' i) w')) by (split; [|split]; cbn [weighted_spline weight_function]; auto; congruence). split; [exact Ra|].
  split; [split; [|split]; cbn [weighted_spline weight_function]; auto; congruence|].
  split; [exact d1|]. split; [unfold rdegrees; cbn [weighted_spline]; congruence|].
  assert (Srel : forall j, Sr' u (sensitivity_roundings dgs D) (nth j (control_points (T' i)) 0) (t i j)) by (intros j; destruct (HT i Hx) as ((_ & _ & _ & C) & _); apply C).
  assert (Hu : 0 <= u) by apply unit_pos. assert (Hu1 : u < 1) by (apply unit_lt_1; auto).
  split. { intros j. cbn [weighted_spline]. destruct (Srel j) as (A & (B & _)). eapply Rle_trans; [|exact B]. apply Rmult_le_pos; [apply pow_le; lra|exact A]. }
  intros HG. set (DD := map (Nat.mul S0) D) in *. assert (LD : length DD = length D) by (unfold DD; apply map_length).
  destruct (conclude p rnd Hp HR (ovr := Vs) (ov := VR) K (mkR (T' i) w') (T0 i) w0 DD (fun xs => rvalue (ov := VR) (mkR (T0 i) w0) xs)) as (A1 & A2); auto; try congruence.
  split; [exact A1|]. destruct (A2 (fun x => x) 1 (id_hom rnd)) as (Z1 & Z2).
  { intros j Hj. cbn [weighted_spline]. rewrite G2 in Hj. rewrite Rmult_1_l. change (@v0 R R VR) with 0. apply (Er_weak _ _ _ (t i j)); [apply (u_pow u Hu)|apply TL; auto|].
    unfold compose_roundings. eapply Er_le; [|eapply Sr_Er; [exact Hu|exact Hu1|apply T0p; auto|apply (proj2 (Srel j))]]. apply Rle_pow; [pose proof (unit_pos p); lra|lia]. }
  split; [exact Z1|]. intros xs HX. apply Z2. rewrite HX. exact (eq_sym LD).
Qed.

(** ** Sensitivities of the composition with a rational outer spline *)
Lemma g_sens_rr {V} (outer : rspline R V) : rwf outer -> rdegrees outer = dgs -> positive (weight_function outer) ->
  exists ts ts0, ComposeSensitivity_RR (o := ornd) MAXB fuel outer inner = Ok ts /\ ComposeSensitivity_RR MAXB fuel outer inner = Ok ts0 /\ length ts = n /\ length ts0 = n /\
    forall i, (i < n)%nat -> exists t t0, nth_error ts i = Some t /\ nth_error ts0 i = Some t0 /\ rwf t /\ rwf t0 /\ rdegrees t = map (Nat.mul S0) D /\ rdegrees t0 = rdegrees t /\
      (forall j, 0 <= nth j (control_points (weighted_spline t)) 0) /\
      (gamma p K < 1 -> positive (weight_function t) /\ approximates p (ov := VR) K t D (fun xs => rvalue (ov := VR) t0 xs) (fun x => x) 1).
Proof using Hp HR HB Hi HC Hsz Hfuel Hne Hdim HF HM.
  destruct outer as [ou ow]. intros Hro Do HP. pose proof Hro as (Wu & Ww & Dw). unfold rdegrees in Do. cbn [weighted_spline weight_function] in *.
  rewrite Do in Dw.
  assert (exists wc, ow = mk dgs wc) as (wc & ->) by (exists (control_points ow); rewrite <- Dw; apply wf_eq_mk; auto).
  assert (Lwc : length wc = n) by (destruct Ww as (_ & _ & _ & L); exact L).
  assert (HFo : Forall (fun q => list_sum (degrees ou) * q < MAXB)%nat D) by (rewrite Do; exact HF).
  assert (HMo : Forall (fun q => q < MAXB)%nat (degrees ou)) by (rewrite Do; exact HM).
  assert (Hdo : length (degrees ou) = d) by (rewrite Do; exact Hdim).
  destruct (numerators p rnd Hp HR MAXB HB d inner Hi HC fuel Hfuel ou Wu Hdo HFo HMo) as (T' & T0 & HT & ES' & ES & _ & _).
  destruct (numerators p rnd Hp HR MAXB HB d inner Hi HC fuel Hfuel (mk dgs wc) Ww Hdim HF HM) as (T1' & T1 & _ & _ & ES1 & _ & N1).
  rewrite (sensR_same MAXB d fuel ou (mk dgs wc) inner Wu Ww (eq_sym Do)), ES in ES1. rewrite Do in HT, ES', ES, ES1. cbn [mk degrees] in N1, ES1.
  assert (S1 : forall i, (i < n)%nat -> T1 i = T0 i).
  { intros i Hx. injection ES1 as ES1. rewrite <- (nth_map_seq T1 n i (mk [] [])), <- (nth_map_seq T0 n i (mk [] [])) by auto. rewrite ES1. reflexivity. }
  destruct (N1 VR) as (q & Eq & Wq & Dq & Cq).
  destruct (numerator_maj p rnd Hp HR MAXB HB d inner Hi HC Hsz fuel Hfuel dgs Hne Hdim HF HM wc Lwc (V := R) (ovr := Vs) (ov := VR) eq_refl (mk dgs wc) Ww eq_refl) as (w' & w0 & w1 & F & F0 & Fw & (Y1 & Y2 & Y3) & (G1 & G2 & G3) & _ & _ & Pos & HNw).
  rewrite Fw in F0. injection F0 as <-. rewrite Fw in Eq. injection Eq as <-. rename w1 into w0. rewrite G1 in G2.
  pose proof (wclose_of _ _ _ _ _ (Pos HP) (HNw (fun x => x) 1 (id_hom rnd) HP (pos_bounded _ HP)) (fun _ => eq_refl)) as CW.
  destruct (scaled_sens p rnd Hp HR D dgs (mkR ou (mk dgs wc)) T' T0 w' w0 Hro Do HP HT Y1 Y3 G1 G2 CW) as (ts & ts0 & E & E0 & H).
  { intros j Hj. change (@v0 R R VR) with 0 in Cq. rewrite Cq by (rewrite Dq; exact Hj). apply vsum_ext. intros i Hx. rewrite S1 by auto. reflexivity. }
  exists ts, ts0. split; [unfold ComposeSensitivity_RR; cbn [weighted_spline weight_function]; rewrite ES'; cbn [bind]; rewrite F; exact E|].
  split; [unfold ComposeSensitivity_RR; cbn [weighted_spline weight_function]; rewrite ES; cbn [bind]; rewrite Fw; exact E0|]. exact H.
Qed.
End Gen.

(** ** Sensitivities of a rational outer and a polynomial inner spline *)
Section Poly.
Context (p : nat) (rnd : R -> R) (Hp : (0 < p)%nat) (HR : nearest p rnd) (MAXB : nat) (HB : (MAXB <= 68)%nat).
Notation ornd := (SOps_rnd rnd).
Notation Vs := (VOps_scalar R (o := ornd)).
Notation VR := (VOps_scalar R (o := SOps_R)).
Lemma g_sens_rp {V} (outer : rspline R V) (inner : spline (point R (length (rdegrees outer)))) : rwf outer -> wf inner ->
  (forall q k, In q (control_points inner) -> (k < length (rdegrees outer))%nat -> 0 <= coord _ q k <= 1) ->
  Forall (fun p => list_sum (rdegrees outer) * p < MAXB)%nat (degrees inner) -> Forall (fun p => p < MAXB)%nat (rdegrees outer) ->
  positive (weight_function outer) -> let n := n_coeffs (rdegrees outer) in let K := compose_roundings (rdegrees outer) (degrees inner) in
  exists ts ts0, ComposeSensitivity_RP (o := ornd) MAXB outer inner = Ok ts /\ ComposeSensitivity_RP MAXB outer inner = Ok ts0 /\ length ts = n /\ length ts0 = n /\
    forall i, (i < n)%nat -> exists t t0, nth_error ts i = Some t /\ nth_error ts0 i = Some t0 /\ rwf t /\ rwf t0 /\
      rdegrees t = map (Nat.mul (list_sum (rdegrees outer))) (degrees inner) /\ rdegrees t0 = rdegrees t /\
      (forall j, 0 <= nth j (control_points (weighted_spline t)) 0) /\
      (gamma p K < 1 -> positive (weight_function t) /\ approximates p (ov := VR) K t (degrees inner) (fun xs => rvalue (ov := VR) t0 xs) (fun x => x) 1).
Proof using Hp HR HB.
  destruct outer as [ou ow]. intros Hro Wi HC HF HM HP n K. pose proof Hro as (Wu & Ww & Dw). cbn [weighted_spline weight_function] in *. unfold rdegrees in *. cbn [weighted_spline] in *.
  assert (exists wc, ow = mk (degrees ou) wc) as (wc & ->) by (exists (control_points ow); rewrite <- Dw; apply wf_eq_mk; auto).
  assert (Lwc : length wc = n) by (destruct Ww as (_ & _ & _ & L); exact L).
  destruct (Sens_rel p rnd Hp HR MAXB HB ou Wu inner Wi HC HF HM) as (ts' & ts & Es' & Es & L' & L & Hts & _). fold n in L', L, Hts.
  assert (E1 : forall l : list (spline R), length l = n -> l = map (fun i => nth i l (mk [] [])) (seq 0 n)).
  { intros l Hl. apply (nth_ext _ _ (mk [] []) (mk [] [])); [rewrite map_length, seq_length; exact Hl|]. intros i Hx. rewrite Hl in Hx. rewrite nth_map_seq by auto. reflexivity. }
  set (T' i := nth i ts' (mk [] [])) in *. set (T0 i := nth i ts (mk [] [])) in *.
  assert (HT : forall i, (i < n)%nat -> rel p (degrees inner) (sensitivity_roundings (degrees ou) (degrees inner)) (list_sum (degrees ou)) (T' i) (T0 i)).
  { intros i Hx. destruct (Hts i Hx) as (t' & t & N' & N & Ht). unfold T', T0. rewrite (nth_error_nth _ _ _ N'), (nth_error_nth _ _ _ N). exact Ht. }
  destruct (comp_maj p rnd Hp HR MAXB HB (V := R) (ovr := Vs) (ov := VR) eq_refl (mk (degrees ou) wc) Ww wc Lwc inner Wi HC HF HM) as (w' & w0 & w1 & F & F0 & Fw & (Y1 & Y2 & Y3) & (G1 & G2 & G3) & _ & _ & Pos & HNw).
  cbn [mk degrees] in F, F0, Fw, G1, G2, G3, HNw, Pos. rewrite Fw in F0. injection F0 as <-. rewrite G1 in G2.
  pose proof (wclose_of _ _ _ _ _ (Pos HP) (HNw (fun x => x) 1 (id_hom rnd) HP (pos_bounded _ HP)) (fun _ => eq_refl)) as CW.
  pose proof (cube_unit ou inner HC) as CU.
  destruct (c76_compose R R SOps_R _ _ _ _ MAXB (mk (degrees ou) wc) inner HB Ww Wi CU HF HM) as (w & ts0 & Ew & Es0 & _ & _ & _ & Hww).
  cbn [mk degrees] in Ew. rewrite Fw in Ew. injection Ew as <-.
  rewrite (sens_same MAXB ou (mk (degrees ou) wc) inner Wu Ww eq_refl), Es in Es0. injection Es0 as <-.
  destruct (scaled_sens p rnd Hp HR (degrees inner) (degrees ou) (mkR ou (mk (degrees ou) wc)) T' T0 w' w1 Hro eq_refl HP HT Y1 Y3 G1 G2 CW) as (us & us0 & E & E0 & H).
  { intros j Hj. assert (Lw : length (control_points w1) = n_coeffs (degrees w1)) by apply Y3. destruct (Hww j ltac:(rewrite Lw, G2; exact Hj)) as (_ & S2). rewrite L in S2.
    refine (eq_trans S2 _). apply (vsum_ext (V := R)). intros i Hx. unfold T0.
    rewrite (nth_indep (map control_points ts) [] (control_points (mk [] [] : spline R))) by (rewrite map_length, L; exact Hx). rewrite map_nth. reflexivity. }
  rewrite (E1 ts' L') in Es'. rewrite (E1 ts L) in Es.
  exists us, us0. split; [unfold ComposeSensitivity_RP; cbn [weighted_spline weight_function]; rewrite Es'; cbn [bind]; rewrite F; exact E|].
  split; [unfold ComposeSensitivity_RP; cbn [weighted_spline weight_function]; rewrite Es; cbn [bind]; rewrite Fw; exact E0|]. exact H.
Qed.
End Poly.
