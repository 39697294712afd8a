(** The quotient rule of [DerivativeWRTParametricDimension] with rounding. *)
From Coq Require Import Arith Lia List ZArith NArith Bool Reals Lra Psatz.
From Verif Require Import Prelude Scalar Spec SpecSpline SpecRational Sums Order Coord ModelBasis ModelSpline ModelRational
  ModelRound ModelRoundMul SpecRound SpecRoundMul ProofIndex ProofBasis ProofEval ProofElevate ProofArith ProofSplit ProofMul ProofCompose
  ProofDerivSpline ProofRational ProofRational2 ProofCasteljau ProofRaw ProofRound ProofRoundEval ProofRoundOps ProofRawMul ProofRoundMul ProofRoundCompose
  ClaimsB ClaimsE ClaimsU ClaimsX ClaimsI ClaimsRoundOps ClaimsRoundMul ModelRoundRat SpecRoundRat ProofRoundRat ProofRoundRat2 ProofRoundRat3.
Import ListNotations.
Local Open Scope R_scope.

(** The numerator of the quotient rule. *)
Definition quotient_numerator {T V} {o : SOps T} {ov : VOps T V} (MAXB fuel k : nat) (r : rspline T V) : res (spline V) :=
  do order_ <- set (repeat 0%nat (length (degrees (weighted_spline r)))) k 1%nat;
  do du <- DerivativeWRT MAXB (weighted_spline r) order_;
  do a <- spline_mul_vs MAXB du (weight_function r);
  do dw <- DerivativeWRT MAXB (weight_function r) order_;
  do b <- spline_mul_sv MAXB dw (weighted_spline r);
  do c <- spline_sub fuel a b;
  OrderElevate c k.
Lemma step_numerator {T V} {o : SOps T} {ov : VOps T V} MAXB fuel k (r : rspline T V) :
  R_derivative_step MAXB fuel k r =
  (do n <- quotient_numerator MAXB fuel k r; do w <- spline_mul_ss MAXB (weight_function r) (weight_function r); R_mk n w).
Proof.
  unfold R_derivative_step, quotient_numerator.
  destruct (set _ _ _) as [x| | | | |]; cbn [bind]; try reflexivity.
  destruct (DerivativeWRT MAXB (weighted_spline r) x); cbn [bind]; try reflexivity.
  destruct (spline_mul_vs _ _ _); cbn [bind]; try reflexivity.
  destruct (DerivativeWRT MAXB (weight_function r) x); cbn [bind]; try reflexivity.
  destruct (spline_mul_sv _ _ _); cbn [bind]; try reflexivity.
  destruct (spline_sub _ _ _); cbn [bind]; try reflexivity.
Qed.

Lemma unit_repeat n k : (k < n)%nat -> unit_order n k = repeat 0%nat k ++ 1%nat :: repeat 0%nat (n - S k).
Proof.
  intros H. apply (list_ext 0%nat).
  - rewrite length_unit, app_length. cbn [length]. rewrite !repeat_length. lia.
  - intros j Hj. rewrite length_unit in Hj. rewrite nth_unit by auto. destruct (Nat.eqb_spec j k) as [->|Hne].
    + rewrite app_nth2; rewrite repeat_length; [|lia]. now rewrite Nat.sub_diag.
    + destruct (lt_dec j k).
      * rewrite app_nth1 by (rewrite repeat_length; auto). now rewrite nth_repeat.
      * rewrite app_nth2; rewrite repeat_length; [|lia]. destruct (j - k)%nat eqn:E; [lia|]. cbn [nth]. now rewrite nth_repeat.
Qed.
Lemma zero_roundings n : derivative_roundings (repeat 0%nat n) = 0%nat.
Proof. unfold derivative_roundings. induction n; simpl; auto. Qed.
Lemma zero_scale degs n : derivative_scale degs (repeat 0%nat n) = 1.
Proof. revert degs; induction n; intros [|q degs]; cbn [repeat derivative_scale]; auto. rewrite IHn. cbn [falling pow]. ring. Qed.
Lemma unit_roundings n k : (k < n)%nat -> derivative_roundings (unit_order n k) = 7%nat.
Proof.
  intros H. rewrite unit_repeat by auto. rewrite derivative_roundings_app. rewrite zero_roundings.
  change (1%nat :: repeat 0%nat (n - S k)) with ([1%nat] ++ repeat 0%nat (n - S k)). rewrite derivative_roundings_app, zero_roundings. reflexivity.
Qed.
Lemma unit_scale degs k : (k < length degs)%nat -> derivative_scale degs (unit_order (length degs) k) = 2 * INR (nth k degs 0%nat).
Proof.
  intros H. rewrite unit_repeat by auto. revert k H. induction degs as [|q degs IH]; intros [|k] H; cbn [length] in *; try lia.
  - cbn [repeat app derivative_scale nth]. rewrite zero_scale. unfold falling. simpl. rewrite ?Nat.sub_0_r. ring.
  - cbn [repeat app derivative_scale nth]. replace (S (length degs) - S (S k))%nat with (length degs - S k)%nat by lia. rewrite IH by lia. cbn [falling pow]. ring.
Qed.
Lemma nth_map2_min l m k : length m = length l -> (k < length l)%nat -> nth k (map2 Nat.min l m) 0%nat = Nat.min (nth k l 0%nat) (nth k m 0%nat).
Proof. revert m k; induction l; intros [|b m] [|k] H Hk; try discriminate; simpl in *; auto; try lia. apply IHl; lia. Qed.
Lemma Er_zero g B : 1 <= g -> 0 <= B -> Er g 0 0 B.
Proof. intros Hg HB. split; rewrite ?Rminus_0_r, Rabs_R0; auto. apply Rmult_le_pos; lra. Qed.

Lemma values_Er {V} {ov : VOps R V} {M : VMod R V} (pr : V -> R) (s' s : spline V) g A xs :
  (forall a b, pr (vadd a b) = pr a + pr b) -> (forall c a, pr (vscale c a) = c * pr a) -> wf s' -> wf s -> degrees s' = degrees s ->
  length xs = length (degrees s) -> in_unit_box xs -> 1 <= g ->
  (forall i, (i < n_coeffs (degrees s))%nat -> Er g (pr (nth i (control_points s') v0)) (pr (nth i (control_points s) v0)) A) ->
  Er g (pr (value_at s' xs)) (pr (value_at s xs)) A.
Proof.
  intros Ha Hs W' W D HX HU Hg H. unfold value_at. rewrite !(pr_bezier pr Ha Hs) by congruence. rewrite D.
  rewrite <- (bezier_const (T := R) (V := R) (degrees s) xs A HX). apply Er_bez; auto.
Qed.

Lemma nth_over {V} (s : spline V) i d : wf s -> ~ (i < n_coeffs (degrees s))%nat -> nth i (control_points s) d = d.
Proof. intros (_ & _ & _ & L) H. apply nth_overflow. lia. Qed.

Section Gen.
Context (p : nat) (rnd : R -> R) (Hp : (0 < p)%nat) (HR : nearest p rnd).
Let u := / 2 ^ p.
Let Hu : 0 <= u := unit_pos p.
Notation ornd := (SOps_rnd rnd).
Notation Vs := (VOps_scalar R (o := ornd)).

Section Der.
Context {V : Type} {ovr : VOps R V} {ov : VOps R V} {M : VMod R V} (v0_r : v0 (VOps := ovr) = v0 (VOps := ov)).
Context (pr : V -> R) (HH : hom_to (o3 := ov) (o3r := ovr) rnd pr).
Lemma derivative_Er MAXB (s : spline V) ks B : (MAXB <= 68)%nat -> wf s -> length ks = length (degrees s) -> Forall2 le ks (degrees s) ->
  Forall (fun k => (k < MAXB)%nat) ks -> 0 <= B -> (forall i, Rabs (pr (nth i (control_points s) v0)) <= B) ->
  exists r r0, DerivativeWRT (o := ornd) (ov := ovr) MAXB s ks = Ok r /\ DerivativeWRT (ov := ov) MAXB s ks = Ok r0 /\
    wf r /\ wf r0 /\ degrees r = map2 Nat.sub (degrees s) ks /\ degrees r0 = map2 Nat.sub (degrees s) ks /\
    forall i, (i < n_coeffs (degrees r0))%nat ->
      Er ((1 + u) ^ derivative_roundings ks) (pr (nth i (control_points r) v0)) (pr (nth i (control_points r0) v0)) (derivative_scale (degrees s) ks * B).
Proof using Hp HR M v0_r HH.
  destruct HH as (pr_add & pr_scale & pr_add_r & pr_scale_r & _). intros HMB Hw HL Hle HM P0 HG.
  destruct (DerivativeWRT_raw (o := ornd) (ov := ovr) MAXB HMB s ks Hw HL Hle HM) as (r & E & Wr & Dr & N).
  destruct (DerivativeWRT_raw (ov := ov) MAXB HMB s ks Hw HL Hle HM) as (r0 & E0 & Wr0 & Dr0 & N0).
  exists r, r0. do 6 (split; [assumption|]). intros i Hi. rewrite Dr0 in Hi. set (nd := map2 Nat.sub (degrees s) ks) in *.
  rewrite <- (position_index_of nd i Hi). rewrite N0 by (apply index_of_valid; auto).
  specialize (N (index_of nd i) ltac:(apply index_of_valid; auto)). rewrite v0_r in N. rewrite N.
  rewrite (pr_rGiter pr pr_add pr_scale), (pr_rGiter_r rnd pr pr_add_r pr_scale_r).
  pose proof (rGiter_err p rnd Hp HR ks (degrees s) (fun mi => pr (nth (position (degrees s) mi) (control_points s) v0)) B (length (degrees s))
      HL (le_n _) (fun mi => HG _) (index_of nd i)) as K.
  rewrite !firstn_all in K. replace (firstn (length (degrees s)) ks) with ks in K by (rewrite <- HL; symmetry; apply firstn_all). exact K.
Qed.
End Der.

Lemma pow_split3 (k : nat) A d1 d2 : 0 <= A -> d1 <= ((1 + u) ^ k - 1) * A -> d2 <= gamma p 5 * (3 * ((1 + u) ^ k * A)) ->
  d1 + d2 <= ((1 + u) ^ (k + 15) - 1) * A.
Proof using Hp.
  intros HA H1 H2. unfold gamma in H2. fold u in H2.
  assert (B : 3 * ((1 + u) ^ 5 - 1) <= (1 + u) ^ 15 - 1).
  { pose proof (pow_bern 3 ((1 + u) ^ 5) ltac:(apply pow_R1_Rle; lra)) as B. rewrite <- pow_mult in B. simpl INR in B. simpl (5 * 3)%nat in B. lra. }
  rewrite pow_add. assert (K : 1 <= (1 + u) ^ k) by (apply pow_R1_Rle; lra).
  set (x := (1 + u) ^ k) in *. set (y := (1 + u) ^ 5) in *. set (z := (1 + u) ^ 15) in *. clearbody x y z.
  assert (0 <= x * A) by (apply Rmult_le_pos; lra).
  assert (3 * (y - 1) * (x * A) <= (z - 1) * (x * A)) by (apply Rmult_le_compat_r; lra). lra.
Qed.

Context {V : Type} {ovr : VOps R V} {ov : VOps R V} {M : VMod R V} (v0_r : v0 (VOps := ovr) = v0 (VOps := ov)).
Context (MAXB : nat) (HB : (MAXB <= 68)%nat).

Lemma numerator_err fuel (r : rspline R V) k (pr : V -> R) U W : homs rnd (ov := ov) (ovr := ovr) pr ->
  rwf r -> (k < length (rdegrees r))%nat -> (1 <= nth k (rdegrees r) 0)%nat ->
  Forall (fun q => q < MAXB)%nat (twice (rdegrees r)) -> (Z.of_nat (n_coeffs (twice (rdegrees r))) < 2 ^ 31)%Z -> (2 <= fuel)%nat ->
  (Z.of_nat (2 * nth k (rdegrees r) 0%nat) < 2 ^ Z.of_nat p)%Z ->
  (forall i, (i < n_coeffs (rdegrees r))%nat -> Rabs (pr (nth i (control_points (weighted_spline r)) v0)) <= U) ->
  (forall i, (i < n_coeffs (rdegrees r))%nat -> Rabs (nth i (control_points (weight_function r)) 0) <= W) ->
  exists n' n, quotient_numerator (o := ornd) (ov := ovr) MAXB fuel k r = Ok n' /\ quotient_numerator (ov := ov) MAXB fuel k r = Ok n /\
    wf n' /\ wf n /\ degrees n' = twice (rdegrees r) /\ degrees n = twice (rdegrees r) /\
    forall xs, length xs = length (rdegrees r) -> in_unit_box xs ->
      Er ((1 + u) ^ (23 + product_roundings (rdegrees r) (rdegrees r))) (pr (value_at n' xs)) (pr (value_at n xs))
         (4 * INR (nth k (rdegrees r) 0%nat) * U * W).
Proof using Hp HR HB M v0_r.
  intros HS Hr Hk H1 HM Hsz Hf Hp2 HU HW. pose proof HS as (HH & Hsub_r & Hsub). pose proof HH as (pr_add & pr_scale & pr_add_r & pr_scale_r & pr_0).
  pose proof Hr as (Wu & Ww & Hd). unfold quotient_numerator.
  set (degs := rdegrees r) in *. set (n := length degs) in *.
  change (length (degrees (weighted_spline r))) with n.
  rewrite set_ok by (rewrite repeat_length; auto). cbn [bind]. fold (unit_order n k). set (e := unit_order n k).
  assert (Le : length e = n) by apply length_unit.
  assert (Hle : Forall2 le e degs).
  { apply Forall2_nth_le; [auto|]. intros j Hj. unfold e. rewrite nth_unit by auto. destruct (Nat.eqb_spec j k) as [->|]; lia. }
  pose proof (nth_forall _ _ k HM ltac:(unfold twice; rewrite map_length; auto)) as HM2. cbv beta in HM2. rewrite nth_twice in HM2.
  assert (HMe : Forall (fun q => q < MAXB)%nat e).
  { apply forall_nth. intros j Hj. unfold e. rewrite nth_unit by auto. destruct (j =? k)%nat; lia. }
  assert (U0 : 0 <= U) by (eapply Rle_trans; [apply Rabs_pos|apply (HU 0%nat); apply n_coeffs_pos]).
  assert (W0 : 0 <= W) by (eapply Rle_trans; [apply Rabs_pos|apply (HW 0%nat); apply n_coeffs_pos]).
  assert (HU' : forall i, Rabs (pr (nth i (control_points (weighted_spline r)) v0)) <= U).
  { intros i. destruct (lt_dec i (n_coeffs degs)); auto. rewrite nth_overflow; [rewrite pr_0, Rabs_R0; auto|].
    destruct Wu as (_ & _ & _ & ->). change (degrees (weighted_spline r)) with degs. lia. }
  assert (HW' : forall i, Rabs (nth i (control_points (weight_function r)) 0) <= W).
  { intros i. destruct (lt_dec i (n_coeffs degs)); auto. rewrite nth_overflow; [rewrite Rabs_R0; auto|].
    destruct Ww as (_ & _ & _ & ->). rewrite Hd. change (degrees (weighted_spline r)) with degs. lia. }
  assert (Sc : derivative_scale degs e = 2 * INR (nth k degs 0%nat)) by (apply unit_scale; auto).
  assert (Ro : derivative_roundings e = 7%nat) by (apply unit_roundings; auto).
  destruct (derivative_Er v0_r pr HH MAXB (weighted_spline r) e U HB Wu Le Hle HMe U0 HU') as (du' & du & Edu' & Edu & Wdu' & Wdu & Ddu' & Ddu & Cdu).
  destruct (derivative_Er (ovr := Vs) (ov := VR) eq_refl (fun x : R => x) (id_hom rnd) MAXB (weight_function r) e W HB Ww) as (dw' & dw & Edw' & Edw & Wdw' & Wdw & Ddw' & Ddw & Cdw);
    auto; try (rewrite Hd; auto).
  rewrite Edu', Edu, Edw', Edw. cbn [bind]. rewrite Hd in Ddw, Ddw', Cdw. change (degrees (weighted_spline r)) with degs in *.
  rewrite Sc, Ro in Cdu, Cdw.
  set (dd := map2 Nat.sub degs e) in *.
  assert (Ldd : length dd = n) by (unfold dd; rewrite length_map2; auto).
  assert (Hdd : forall j, (j < n)%nat -> nth j dd 0%nat = if (j =? k)%nat then (nth k degs 0 - 1)%nat else nth j degs 0%nat).
  { intros j Hj. unfold dd. rewrite nth_map2_sub by auto. unfold e. rewrite nth_unit by auto.
    destruct (Nat.eqb_spec j k) as [->|]; lia. }
  set (pd := map2 Nat.add dd degs).
  assert (Lpd : length pd = n) by (unfold pd; rewrite length_map2; auto).
  assert (Hpd : forall j, (j < n)%nat -> nth j pd 0%nat = if (j =? k)%nat then (2 * nth k degs 0 - 1)%nat else (2 * nth j degs 0)%nat).
  { intros j Hj. unfold pd. rewrite nth_map2_add by lia. rewrite Hdd by auto. destruct (Nat.eqb_spec j k) as [->|]; lia. }
  assert (HMp : Forall (fun p => p < MAXB)%nat pd).
  { apply forall_nth. intros j Hj. rewrite Lpd in Hj. rewrite Hpd by auto.
    pose proof (nth_forall _ _ j HM ltac:(unfold twice; rewrite map_length; auto)) as A. cbv beta in A. rewrite nth_twice in A.
    destruct (Nat.eqb_spec j k) as [->|]; lia. }
  set (X := 2 * INR (nth k degs 0%nat)) in *.
  assert (X0 : 0 <= X) by (unfold X; pose proof (pos_INR (nth k degs 0%nat)); lra).
  assert (XU : 0 <= X * U) by (apply Rmult_le_pos; auto). assert (XW : 0 <= X * W) by (apply Rmult_le_pos; auto).
  (* the two products *)
  destruct (mul_err p rnd Hp HR MAXB HB (ovr := ovr) (ov := ov) pr pr_add pr_scale pr_add_r pr_scale_r
    (fun (q : V) (c : R) => vscale (VOps := ovr) c q) (fun (q : V) (c : R) => vscale (VOps := ov) c q) 8 (X * U * W) v0_r pr_0 (v0 (VOps := ov)) 0
    du' du (weight_function r) (weight_function r)) as (a' & a & Ea' & Ea & Wa' & Wa & Da & Da' & Ca); auto; try congruence.
  { rewrite Ddu, Hd, Ldd. reflexivity. }
  { rewrite Ddu, Hd. exact HMp. }
  { intros i j. rewrite pr_scale_r, pr_scale. apply (Er_r p rnd Hp HR). replace (X * U * W) with (W * (X * U)) by ring.
    apply (Er_m p Hp 0 7).
    - apply (Er_weak _ _ _ (Rabs (nth j (control_points (weight_function r)) 0))); [simpl; lra|apply HW'|apply (Er_x p)].
    - destruct (lt_dec i (n_coeffs (degrees du))); auto.
      rewrite (nth_over du' i) by (auto; now rewrite Ddu', <- Ddu). rewrite (nth_over du i) by auto. rewrite pr_0. apply Er_zero; auto. apply pow_R1_Rle; pose proof (unit_pos p); lra. }
  destruct (mul_err p rnd Hp HR MAXB HB (ovr := ovr) (ov := ov) pr pr_add pr_scale pr_add_r pr_scale_r
    (fun (c : R) (q : V) => vscale (VOps := ovr) c q) (fun (c : R) (q : V) => vscale (VOps := ov) c q) 8 (X * U * W) v0_r pr_0 0 (v0 (VOps := ov))
    dw' dw (weighted_spline r) (weighted_spline r)) as (b' & b & Eb' & Eb & Wb' & Wb & Db & Db' & Cb); auto; try congruence.
  { rewrite Ddw, Ldd. reflexivity. }
  { rewrite Ddw. exact HMp. }
  { intros i j. rewrite pr_scale_r, pr_scale. apply (Er_r p rnd Hp HR). replace (X * U * W) with (X * W * U) by ring.
    apply (Er_m p Hp 7 0).
    - destruct (lt_dec i (n_coeffs (degrees dw))); [apply Cdw; auto|].
      rewrite (nth_over dw' i) by (auto; now rewrite Ddw', <- Ddw). rewrite (nth_over dw i) by auto. apply Er_zero; auto. apply pow_R1_Rle; pose proof (unit_pos p); lra.
    - apply (Er_weak _ _ _ (Rabs (pr (nth j (control_points (weighted_spline r)) v0)))); [simpl; lra|apply HU'|apply (Er_x p)]. }
  unfold spline_mul_vs, spline_mul_sv.
  rewrite Ea', Ea. cbn [bind]. rewrite Eb', Eb. cbn [bind].
  rewrite Ddu, Hd in Da. rewrite Ddw in Db. change (degrees (weighted_spline r)) with degs in *. fold pd in Da, Db.
  (* the difference *)
  destruct (add_raw (o := ornd) (ov := ovr) fuel a' b') as (_ & _ & Ec' & _); auto; try congruence.
  destruct (add_raw (o := SOps_R) (ov := ov) fuel a b) as (_ & _ & Ec & _); auto; try congruence.
  rewrite Ec', Ec. cbn [bind].
  set (c' := combined_with (vsub (VOps := ovr)) a' b') in *. set (c := combined_with (vsub (VOps := ov)) a b) in *.
  assert (Wc' : wf c') by (apply combined_with_wf; auto; congruence). assert (Wc : wf c) by (apply combined_with_wf; auto; congruence).
  assert (Dc' : degrees c' = pd) by (unfold c', combined_with; cbn [with_cps degrees]; congruence).
  assert (Dc : degrees c = pd) by (unfold c, combined_with; cbn [with_cps degrees]; congruence).
  set (A := 4 * INR (nth k degs 0%nat) * U * W). assert (EA : A = X * U * W + X * U * W) by (unfold A, X; ring).
  assert (A0 : 0 <= A) by (rewrite EA; assert (0 <= X * U * W) by (apply Rmult_le_pos; auto); lra).
  set (pi := product_roundings degs degs).
  assert (Hpi : (product_roundings dd degs <= pi)%nat).
  { unfold pi, product_roundings. rewrite Ldd. fold n. assert ((n_coeffs (map2 Nat.min dd degs) <= n_coeffs (map2 Nat.min degs degs))%nat); [|lia].
    assert (Ld' : length degs = length dd) by (symmetry; exact Ldd).
    assert (L1 : length (map2 Nat.min dd degs) = n) by (rewrite length_map2; auto).
    assert (L2 : length (map2 Nat.min degs degs) = n) by (rewrite length_map2; auto).
    apply n_coeffs_mono. apply Forall2_nth_le; [congruence|]. intros j Hj. rewrite L1 in Hj.
    rewrite (nth_map2_min dd degs), (nth_map2_min degs degs) by (auto; rewrite Ldd; auto). rewrite Hdd by auto. destruct (Nat.eqb_spec j k) as [->|]; lia. }
  assert (Cc : forall i, (i < n_coeffs pd)%nat -> Er ((1 + u) ^ (8 + pi)) (pr (nth i (control_points c') v0)) (pr (nth i (control_points c) v0)) A).
  { intros i Hi. rewrite Da in Ca. rewrite Db in Cb. specialize (Ca i Hi). specialize (Cb i Hi). rewrite Ddu, Hd in Ca. rewrite Ddw in Cb.
    change (degrees (weighted_spline r)) with degs in *.
    unfold c', c, combined_with. cbn [with_cps control_points].
    rewrite !(nth_map2 _ _ _ _ v0 v0) by (destruct Wa as (_ & _ & _ & ?), Wb as (_ & _ & _ & ?), Wa' as (_ & _ & _ & ?), Wb' as (_ & _ & _ & ?); congruence).
    rewrite Hsub_r, Hsub, EA. apply (Er_r p rnd Hp HR). apply Er_sub; (eapply (Er_up p Hp); [|eassumption]); unfold u; lia. }
  (* the elevation *)
  assert (Edeg : upd_list pd k (S (nth k pd 0%nat)) = twice degs).
  { apply (list_ext 0%nat); [rewrite length_upd; unfold twice; rewrite map_length; auto|]. intros j Hj.
    rewrite length_upd, Lpd in Hj. rewrite nth_upd by lia. rewrite nth_twice, Hpd by auto.
    rewrite Hpd, Nat.eqb_refl by auto. destruct (Nat.eqb_spec j k) as [->|]; lia. }
  destruct (OrderElevate_step c k Wc) as (n0 & En & Wn & Dn & Vn).
  { rewrite Dc. lia. }
  { rewrite Dc, Edeg. exact Hsz. }
  rewrite Dc, Edeg in Dn.
  destruct (elevate_err p rnd Hp HR pr pr_add pr_scale pr_add_r pr_scale_r v0_r c' k ((1 + u) ^ (8 + pi) * A) Wc') as
    (n' & n1 & En' & _ & Wn' & Wn1 & Dn' & Dn1 & SV & _ & HC).
  { rewrite Dc'. lia. }
  { rewrite Dc', Hpd, Nat.eqb_refl by auto. lia. }
  { rewrite Dc', Edeg. exact Hsz. }
  { apply fl_nth. intros i Hi. destruct Wc' as (_ & _ & _ & Lc). rewrite Lc, Dc' in Hi. apply (Er_abs _ _ _ _ (Cc i Hi)). }
  rewrite Dc', Edeg in Dn'.
  exists n', n0. split; [exact En'|]. split; [exact En|]. do 4 (split; [assumption|]).
  intros xs HX HI.
  assert (Vc : Er ((1 + u) ^ (8 + pi)) (pr (value_at c' xs)) (pr (value_at c xs)) A).
  { apply (values_Er pr c' c); auto; try congruence; [apply pow_R1_Rle; lra|now rewrite Dc]. }
  rewrite (Vn xs) by (rewrite Dc; congruence).
  assert (Ve : Rabs (pr (value_at n' xs) - pr (value_at c' xs)) <= gamma p 5 * (3 * ((1 + u) ^ (8 + pi) * A))).
  { rewrite <- (SV xs) by (rewrite Dc'; congruence). apply (close_values pr pr_add pr_scale); auto; rewrite ?Dn1, ?Dn'; auto.
    unfold twice. rewrite map_length. auto. intros i Hi. apply HC. congruence. }
  destruct Vc as (V1 & V2). split; [|exact V2].
  replace (pr (value_at n' xs) - pr (value_at c xs)) with ((pr (value_at c' xs) - pr (value_at c xs)) + (pr (value_at n' xs) - pr (value_at c' xs))) by ring.
  eapply Rle_trans; [apply Rabs_triang|]. replace (23 + pi)%nat with (8 + pi + 15)%nat by lia.
  apply pow_split3; auto.
Qed.

Lemma value_low (w : spline R) m xs : wf w -> (forall i, (i < n_coeffs (degrees w))%nat -> m <= nth i (control_points w) 0) ->
  length xs = length (degrees w) -> in_unit_box xs -> m <= value_at w xs.
Proof using.
  intros Ww H HX HI. unfold value_at. rewrite <- (bezier_const (T := R) (V := R) (degrees w) xs m HX) at 1. apply bez_le; auto.
Qed.
Lemma homs_zero : homs rnd (ov := ov) (ovr := ovr) (fun _ => 0).
Proof using HR. repeat split; intros; nohom HR. Qed.

Lemma g_derivative fuel (r : rspline R V) k m W :
  rwf r -> (k < length (rdegrees r))%nat -> (1 <= nth k (rdegrees r) 0)%nat ->
  Forall (fun q => q < MAXB)%nat (twice (rdegrees r)) -> (Z.of_nat (n_coeffs (twice (rdegrees r))) < 2 ^ 31)%Z -> (2 <= fuel)%nat ->
  (Z.of_nat (2 * nth k (rdegrees r) 0%nat) < 2 ^ Z.of_nat p)%Z ->
  0 < m -> (forall i, (i < n_coeffs (rdegrees r))%nat -> m <= nth i (control_points (weight_function r)) 0 <= W) ->
  exists c D, R_derivative_step (o := ornd) (ov := ovr) MAXB fuel k r = Ok c /\ R_derivative_step (ov := ov) MAXB fuel k r = Ok D /\
    rwf c /\ rdegrees c = twice (rdegrees r) /\
    let g := gamma p (23 + product_roundings (rdegrees r) (rdegrees r)) in
    (g < 1 -> positive (weight_function c) /\
     forall pr U, homs rnd (ov := ov) (ovr := ovr) pr ->
       (forall i, (i < n_coeffs (rdegrees r))%nat -> Rabs (pr (nth i (control_points (weighted_spline r)) v0)) <= U) ->
       forall xs, length xs = length (rdegrees r) -> in_unit_box xs ->
         Rabs (pr (rvalue (ov := ov) c xs) - pr (rvalue (ov := ov) D xs)) <= quotient_error g (4 * INR (nth k (rdegrees r) 0%nat) * U * W / (m * m))).
Proof using Hp HR HB M v0_r.
  intros Hr Hk H1 HM Hsz Hf Hp2 Hm HW. pose proof Hr as (Wu & Ww & Hd).
  assert (HWa : forall i, (i < n_coeffs (rdegrees r))%nat -> Rabs (nth i (control_points (weight_function r)) 0) <= W).
  { intros i Hi. specialize (HW i Hi). rewrite Rabs_right; lra. }
  assert (HP : positive (weight_function r)).
  { intros i Hi. rewrite Hd in Hi. specialize (HW i Hi). lra. }
  destruct (numerator_err fuel r k (fun _ => 0) 0 W homs_zero Hr Hk H1 HM Hsz Hf Hp2) as (n' & n & En' & En & Wn' & Wn & Dn' & Dn & _); auto.
  { intros. rewrite Rabs_R0. lra. }
  destruct (mulw p rnd Hp HR MAXB HB (weight_function r) (weight_function r)) as (w' & w & Ew' & Ew & Ww' & Ww0 & Dw' & Dw & CW & HV); auto.
  { rewrite Hd. change (degrees (weighted_spline r)) with (rdegrees r). rewrite twice_add. exact HM. }
  rewrite Hd in Dw', Dw, CW. change (degrees (weighted_spline r)) with (rdegrees r) in *. rewrite twice_add in Dw', Dw.
  rewrite !step_numerator, En', En. cbn [bind]. rewrite Ew', Ew. cbn [bind].
  rewrite !ProofRational.R_mk_ok by congruence. exists (mkR n' w'), (mkR n w). do 2 (split; [reflexivity|]).
  split; [split; [|split]; cbn [weighted_spline weight_function]; auto; congruence|].
  split; [exact Dn'|]. set (K := (23 + product_roundings (rdegrees r) (rdegrees r))%nat). set (g := gamma p K). intros HG. cbn [weight_function].
  assert (G0 : 0 <= g) by (apply gamma_pos; auto).
  assert (EG : (1 + u) ^ K = 1 + g) by (unfold g, gamma; fold u; ring).
  assert (CW' : wclose p K w' w) by (eapply (wclose_up p Hp); [|exact CW]; unfold K; lia).
  split.
  - intros i Hi. destruct (CW' i ltac:(congruence)) as (A & A1). fold u in A1. rewrite EG in A1.
    eapply (growth g 1); [exact (conj G0 HG)|exact A|exact A1|]. rewrite Rmult_1_l. exact A1.
  - intros pr U HS HU xs HX HI.
    destruct (numerator_err fuel r k pr U W HS Hr Hk H1 HM Hsz Hf Hp2 HU HWa) as (n1' & n1 & F' & F & _ & _ & _ & _ & HE).
    rewrite En' in F'. injection F' as <-. rewrite En in F. injection F as <-.
    pose proof HS as (HH & _). pose proof HH as (pr_add & pr_scale & _).
    unfold rvalue. cbn [weighted_spline weight_function]. rewrite !pr_scale.
    specialize (HE xs HX HI). fold K in HE. rewrite EG in HE.
    assert (Lt : length (twice (rdegrees r)) = length (rdegrees r)) by (unfold twice; apply map_length).
    assert (Low : m * m <= value_at w xs).
    { rewrite HV by congruence. assert (m <= value_at (weight_function r) xs).
      { apply value_low; [exact Ww|intros i Hi; rewrite Hd in Hi; apply (HW i Hi)|congruence|exact HI]. }
      apply Rmult_le_compat; lra. }
    assert (Mm : 0 < m * m) by (apply Rmult_lt_0_compat; auto).
    apply quotient; auto; [lra| |].
    + rewrite <- EG. assert (E1 : degrees w' = degrees w) by congruence. unfold value_at. rewrite E1. apply Er_bez; try congruence; auto.
      * apply pow_R1_Rle; lra.
      * intros i Hi. apply (CW' i). exact Hi.
    + apply (Er_weak _ _ _ (4 * INR (nth k (rdegrees r) 0%nat) * U * W)); [lra| |exact HE].
      set (A := 4 * INR (nth k (rdegrees r) 0%nat) * U * W) in *. assert (A0 : 0 <= A) by (apply (Er_pos _ _ _ _ HE)).
      replace A with (A / (m * m) * (m * m)) at 1 by (field; lra). apply Rmult_le_compat_l; auto.
      apply Rmult_le_pos; auto. left. apply Rinv_0_lt_compat. auto.
Qed.
End Gen.

Lemma for_up_id {A} (f : nat -> A -> res A) n : forall lo a, (forall i x, (lo <= i < lo + n)%nat -> f i x = Ok x) -> for_up lo n f a = Ok a.
Proof.
  induction n; intros lo a H; cbn [for_up]; auto. rewrite H by lia. cbn [bind]. apply IHn. intros; apply H; lia.
Qed.
Lemma for_up_one {A} (f : nat -> A -> res A) n k : forall lo a, (lo <= k < lo + n)%nat -> (forall i x, i <> k -> (lo <= i < lo + n)%nat -> f i x = Ok x) -> for_up lo n f a = f k a.
Proof.
  induction n; intros lo a Hk H; [lia|]. cbn [for_up]. destruct (Nat.eq_dec lo k) as [->|Hne].
  - destruct (f k a); cbn [bind]; auto. apply for_up_id. intros; apply H; lia.
  - rewrite H by lia. cbn [bind]. apply IHn; [lia|]. intros; apply H; lia.
Qed.
Lemma derivative_unit {T V} {o : SOps T} {ov : VOps T V} MAXB fuel (r : rspline T V) k : (k < length (rdegrees r))%nat ->
  R_DerivativeWRT MAXB fuel r (unit_order (length (rdegrees r)) k) = R_derivative_step MAXB fuel k r.
Proof.
  intros Hk. unfold R_DerivativeWRT. change (length (degrees (weighted_spline r))) with (length (rdegrees r)).
  rewrite (for_up_one _ _ k) by (try lia; intros i x Hi Hr; rewrite (get_ok 0%nat) by (rewrite length_unit; lia); rewrite nth_unit by auto; rewrite (proj2 (Nat.eqb_neq i k)) by auto; reflexivity).
  rewrite (get_ok 0%nat) by (rewrite length_unit; lia). rewrite nth_unit, Nat.eqb_refl by auto. cbn [bind for_up]. destruct (R_derivative_step MAXB fuel k r); reflexivity.
Qed.
