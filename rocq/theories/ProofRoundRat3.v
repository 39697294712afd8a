(** The operations on rational splines with positive weights, with rounding: control points and values. *)
From Coq Require Import Arith Lia List ZArith NArith Bool Reals Lra Psatz.
From Verif Require Import Prelude Scalar Spec SpecSpline SpecRational Sums Order Coord ModelBasis ModelSpline ModelRational
  ModelRound ModelRoundMul SpecRound SpecRoundMul ProofIndex ProofBasis ProofEval ProofElevate ProofArith ProofSplit ProofMul ProofCompose
  ProofRational ProofRational2 ProofCasteljau ProofRaw ProofRound ProofRoundEval ProofRoundOps ProofRawMul ProofRoundMul ProofRoundCompose
  ClaimsB ClaimsE ClaimsU ClaimsX ClaimsRoundOps ClaimsRoundMul ModelRoundRat SpecRoundRat ProofRoundRat ProofRoundRat2.
Import ListNotations.
Local Open Scope R_scope.

Section Quot.
Context {T V : Type} {o : SOps T} {ov : VOps T V} {F : SField T} {M : VMod T V}.
Add Field Tfield : (@sf_th T o F).
Add Ring Ering : (@ext_ring T V o ov F M).
Lemma scale_op (op : V -> V -> V) (x : T) (a b : V) : op = vadd \/ op = vsub -> vscale x (op a b) = op (vscale x a) (vscale x b).
Proof. intros [-> | ->]; to_ext; ring. Qed.
End Quot.

Section Gen.
Context (p : nat) (rnd : R -> R) (Hp : (0 < p)%nat) (HR : nearest p rnd).
Let u := / 2 ^ p.
Let Hu : 0 <= u := unit_pos p.
Notation ornd := (SOps_rnd rnd).
Notation Vs := (VOps_scalar R (o := ornd)).

Lemma id_hom : hom_to (o3 := VR) (o3r := Vs) rnd (fun x : R => x).
Proof using. repeat split; intros; reflexivity. Qed.
Lemma wclose_of K (w' w w0 : spline R) : positive w -> nclose p K (fun x : R => x) 1 w' w0 w -> (forall i, nth i (control_points w0) 0 = nth i (control_points w) 0) -> wclose p K w' w.
Proof using.
  intros HP HN H0 i Hi. split; [apply HP; auto|]. specialize (HN i Hi). rewrite Rmult_1_l, H0 in HN. exact HN.
Qed.
Lemma pos_bounded (w : spline R) : positive w -> bounded (fun x : R => x) 1 w w.
Proof using. intros H i Hi. rewrite Rmult_1_l. change (v0 (V := R)) with 0. specialize (H i Hi). rewrite Rabs_right; lra. Qed.

Context {V : Type} {ovr : VOps R V} {ov : VOps R V} {M : VMod R V} (v0_r : v0 (VOps := ovr) = v0 (VOps := ov)).
Notation hom pr := (hom_to (o3 := ov) (o3r := ovr) rnd pr).

(** What is shown about a computed spline [r'] that stands for the function [f]. *)
Definition approximates (K : nat) (r' : rspline R V) (D : list nat) (f : list R -> V) (pr : V -> R) (B : R) : Prop :=
  bounded pr (quotient_growth (gamma p K) B) (weighted_spline r') (weight_function r') /\
  forall xs, length xs = length D -> in_unit_box xs ->
    Rabs (pr (rvalue (ov := ov) r' xs) - pr (f xs)) <= quotient_error (gamma p K) B.

Lemma conclude K (r' : rspline R V) (n : spline V) (w : spline R) D (f : list R -> V) :
  rwf r' -> wf n -> wf w -> degrees n = D -> degrees w = D -> rdegrees r' = D ->
  wclose p K (weight_function r') w ->
  (forall xs, length xs = length D -> in_unit_box xs -> 0 < value_at w xs -> vscale (1 / value_at w xs) (value_at n xs) = f xs) ->
  gamma p K < 1 -> positive (weight_function r') /\
  forall pr B, hom pr -> nclose p K pr B (weighted_spline r') n w -> approximates K r' D f pr B.
Proof using Hp HR M.
  intros Wr Wn Ww Dn Dw Dr HW HF HG.
  assert (G0 : 0 <= gamma p K) by (apply gamma_pos; auto).
  assert (EG : (1 + u) ^ K = 1 + gamma p K) by (unfold gamma; fold u; ring).
  assert (Dw' : degrees (weight_function r') = D) by (destruct Wr as (_ & _ & E); unfold rdegrees in Dr; congruence).
  split.
  - intros i Hi. destruct (HW i ltac:(congruence)) as (A & A1). fold u in A1. rewrite EG in A1.
    eapply (growth (gamma p K) 1); [exact (conj G0 HG)|exact A|exact A1|]. rewrite Rmult_1_l. exact A1.
  - intros pr B HH HN.
    assert (Wm : rwf (mkR n w)) by (split; [|split]; cbn [weighted_spline weight_function]; auto; congruence).
    assert (Dm : rdegrees r' = rdegrees (mkR n w)) by (unfold rdegrees in *; cbn [weighted_spline]; congruence).
    destruct (rat_values p rnd Hp HR K r' (mkR n w) pr B Wr Wm Dm HH HG HW HN) as (R1 & R2).
    unfold rdegrees in R1, R2. cbn [weighted_spline weight_function] in R1, R2. rewrite Dn in R1, R2. split.
    + intros i Hi. apply (R1 i). congruence.
    + intros xs HX HU. destruct (R2 xs HX HU) as (P1 & _ & P3). unfold rvalue at 2 in P3. cbn [weighted_spline weight_function] in P3.
      rewrite <- (HF xs HX HU P1). exact P3.
Qed.

(** ** Subdivision *)
Lemma g_split (r : rspline R V) x k : rwf r -> (k < length (rdegrees r))%nat -> 0 < x < 1 -> positive (weight_function r) ->
  exists a b, R_SplitAtPosition (o := ornd) (ov := ovr) r x k = Ok [a; b] /\ rwf a /\ rwf b /\ rdegrees a = rdegrees r /\ rdegrees b = rdegrees r /\
    let K := (3 * nth k (rdegrees r) 0)%nat in
    (gamma p K < 1 -> positive (weight_function a) /\ positive (weight_function b) /\
     forall pr B, hom pr -> bounded pr B (weighted_spline r) (weight_function r) ->
       approximates K a (rdegrees r) (fun xs => rvalue (ov := ov) r (upd_list xs k (x * nth k xs 0))) pr B /\
       approximates K b (rdegrees r) (fun xs => rvalue (ov := ov) r (upd_list xs k (x + (1 - x) * nth k xs 0))) pr B).
Proof using Hp HR M v0_r.
  intros (Wu & Ww & Dw) Hk Hx HP. unfold rdegrees in *. set (D := degrees (weighted_spline r)) in *.
  destruct (split_maj p rnd Hp HR v0_r (weighted_spline r) (weight_function r) x k Wu Ww Dw Hk Hx)
    as (l & r' & l0 & r0 & lw & rw & E & E0 & Ew & (W1 & W2 & W3 & W4 & W5 & W6) & (D1 & D2 & D3 & D4 & D5 & D6) & Pos & HN).
  destruct (split_maj p rnd Hp HR (V := R) (ovr := Vs) (ov := VR) eq_refl (weight_function r) (weight_function r) x k Ww Ww eq_refl ltac:(now rewrite Dw) Hx)
    as (wl & wr & wl0 & wr0 & lw' & rw' & F & F0 & Fw & (X1 & X2 & X3 & X4 & X5 & X6) & (Y1 & Y2 & Y3 & Y4 & Y5 & Y6) & _ & HNw).
  rewrite Ew in F0, Fw. injection F0 as <- <-. injection Fw as <- <-. rewrite Dw in *. fold D in D1, D2, D3, D4, D5, D6.
  destruct (HNw (fun x => x) 1 id_hom (pos_bounded _ HP)) as (NW1 & NW2). destruct (Pos HP) as (P1 & P2).
  pose proof (wclose_of _ _ _ _ P1 NW1 (fun _ => eq_refl)) as C1. pose proof (wclose_of _ _ _ _ P2 NW2 (fun _ => eq_refl)) as C2.
  assert (H0 : slt (s0 (SOps := SOps_R)) x) by (unfold slt; cbn [sltb s0 SOps_R]; destruct (Rlt_dec R0 x) as [|N]; auto; change R0 with 0 in N; lra).
  assert (H1 : slt x (s1 (SOps := SOps_R))) by (unfold slt; cbn [sltb s1 SOps_R]; destruct (Rlt_dec x R1) as [|N]; auto; change R1 with 1 in N; lra).
  destruct (Split_values (weighted_spline r) x k Wu Hk H0 H1) as (q1 & q2 & Q & _ & _ & _ & _ & HV). rewrite E0 in Q. injection Q as <- <-.
  destruct (Split_values (weight_function r) x k Ww ltac:(now rewrite Dw) H0 H1) as (q1 & q2 & Q & _ & _ & _ & _ & HVw). rewrite Ew in Q. injection Q as <- <-.
  unfold R_SplitAtPosition. rewrite E. cbn [bind]. rewrite F. cbn [bind get nth_error].
  rewrite R_mk_ok by congruence. cbn [bind]. rewrite R_mk_ok by congruence. cbn [bind].
  assert (Ra : rwf (mkR l wl)) by (split; [|split]; cbn [weighted_spline weight_function]; auto; congruence).
  assert (Rb : rwf (mkR r' wr)) by (split; [|split]; cbn [weighted_spline weight_function]; auto; congruence).
  exists (mkR l wl), (mkR r' wr). split; [reflexivity|]. split; [exact Ra|]. split; [exact Rb|]. split; [exact D1|]. split; [exact D2|].
  cbv zeta. set (K := (3 * nth k D 0)%nat) in *. intros HG.
  destruct (conclude K (mkR l wl) l0 lw D (fun xs => rvalue (ov := ov) r (upd_list xs k (x * nth k xs 0)))) as (A1 & A2); auto.
  { intros xs HX HU _. unfold rvalue. destruct (HV xs HX) as (-> & _). destruct (HVw xs) as (-> & _); [now rewrite Dw|]. reflexivity. }
  destruct (conclude K (mkR r' wr) r0 rw D (fun xs => rvalue (ov := ov) r (upd_list xs k (x + (1 - x) * nth k xs 0)))) as (B1 & B2); auto.
  { intros xs HX HU _. unfold rvalue. destruct (HV xs HX) as (_ & ->). destruct (HVw xs) as (_ & ->); [now rewrite Dw|]. reflexivity. }
  split; [exact A1|]. split; [exact B1|]. intros pr B HH HB. destruct (HN pr B HH HB) as (N1 & N2). split; [apply A2|apply B2]; auto.
Qed.

(** ** Elevation *)
Lemma g_elevate (r : rspline R V) k : rwf r -> (k < length (rdegrees r))%nat -> positive (weight_function r) ->
  (Z.of_nat (nth k (rdegrees r) 0%nat + 1) < 2 ^ Z.of_nat p)%Z ->
  (Z.of_nat (n_coeffs (upd_list (rdegrees r) k (S (nth k (rdegrees r) 0%nat)))) < 2 ^ 31)%Z ->
  exists e, R_OrderElevate (o := ornd) (ov := ovr) r k = Ok e /\ rwf e /\ rdegrees e = upd_list (rdegrees r) k (S (nth k (rdegrees r) 0%nat)) /\
    let K := (2 * nth k (rdegrees r) 0 + 3)%nat in
    (gamma p K < 1 -> positive (weight_function e) /\
     forall pr B, hom pr -> bounded pr B (weighted_spline r) (weight_function r) -> approximates K e (rdegrees r) (rvalue (ov := ov) r) pr B).
Proof using Hp HR M v0_r.
  intros (Wu & Ww & Dw) Hk HP Hq Hsz. unfold rdegrees in *. set (D := degrees (weighted_spline r)) in *.
  destruct (elevate_maj p rnd Hp HR v0_r (weighted_spline r) (weight_function r) k Wu Ww Dw Hk Hq Hsz)
    as (e & e0 & ew & E & E0 & Ew & (W1 & W2 & W3) & (D1 & D2 & D3) & Pos & HN).
  destruct (elevate_maj p rnd Hp HR (V := R) (ovr := Vs) (ov := VR) eq_refl (weight_function r) (weight_function r) k Ww Ww eq_refl ltac:(now rewrite Dw) ltac:(now rewrite Dw) ltac:(now rewrite Dw))
    as (we & we0 & ew' & F & F0 & Fw & (X1 & X2 & X3) & (Y1 & Y2 & Y3) & _ & HNw).
  rewrite Ew in F0, Fw. injection F0 as <-. injection Fw as <-. rewrite Dw in *. fold D in D1, D2, D3.
  pose proof (HNw (fun x => x) 1 id_hom (pos_bounded _ HP)) as NW1. pose proof (Pos HP) as P1.
  pose proof (wclose_of _ _ _ _ P1 NW1 (fun _ => eq_refl)) as C1.
  destruct (OrderElevate_step (weighted_spline r) k Wu Hk Hsz) as (q & Q & _ & _ & SV). rewrite E0 in Q. injection Q as <-.
  destruct (OrderElevate_step (weight_function r) k Ww ltac:(now rewrite Dw) ltac:(now rewrite Dw)) as (q & Q & _ & _ & SVw). rewrite Ew in Q. injection Q as <-.
  unfold R_OrderElevate. rewrite E. cbn [bind]. rewrite F. cbn [bind]. rewrite R_mk_ok by congruence.
  assert (Ra : rwf (mkR e we)) by (split; [|split]; cbn [weighted_spline weight_function]; auto; congruence).
  exists (mkR e we). split; [reflexivity|]. split; [exact Ra|]. split; [exact D1|]. cbv zeta. set (K := (2 * nth k D 0 + 3)%nat) in *. intros HG.
  set (D' := upd_list D k (S (nth k D 0%nat))) in *. assert (LD : length D' = length D) by (unfold D'; apply length_upd).
  destruct (conclude K (mkR e we) e0 ew D' (rvalue (ov := ov) r)) as (A1 & A2); auto; try congruence.
  { intros xs HX HU _. unfold rvalue. rewrite (SV xs), (SVw xs); [reflexivity| |]; rewrite ?Dw; fold D; congruence. }
  split; [exact A1|]. intros pr B HH HB. destruct (A2 pr B HH (HN pr B HH HB)) as (G1 & G2). split; [exact G1|]. intros xs HX. apply G2. congruence.
Qed.

Lemma value_pos (w : spline R) xs : wf w -> positive w -> length xs = length (degrees w) -> in_unit_box xs -> 0 < value_at w xs.
Proof using. intros W HP HX HU. unfold value_at. apply bez_pos; auto. Qed.
Lemma wclose_up j k (w' w : spline R) : (j <= k)%nat -> wclose p j w' w -> wclose p k w' w.
Proof using Hp. intros L H i Hi. destruct (H i Hi) as (A & B). split; auto. eapply (Er_up p Hp); eauto. Qed.

Context (MAXB : nat) (HB : (MAXB <= 68)%nat).
Lemma mulw (a b : spline R) : wf a -> wf b -> length (degrees b) = length (degrees a) -> Forall (fun k => k < MAXB)%nat (map2 Nat.add (degrees a) (degrees b)) ->
  positive a -> positive b ->
  exists w' w, spline_mul_ss (o := ornd) MAXB a b = Ok w' /\ spline_mul_ss MAXB a b = Ok w /\ wf w' /\ wf w /\
    degrees w' = map2 Nat.add (degrees a) (degrees b) /\ degrees w = map2 Nat.add (degrees a) (degrees b) /\
    wclose p (product_roundings (degrees a) (degrees b)) w' w /\
    forall xs, length xs = length (degrees a) -> value_at w xs = value_at a xs * value_at b xs.
Proof using Hp HR HB.
  intros Wa Wb HL HM Pa Pb.
  destruct (mul_maj p rnd Hp HR MAXB HB (V1 := R) (V2 := R) (ovr := Vs) (ov := VR) eq_refl (smul (SOps := ornd)) smul 1 0 0 a a b b a b) as
    (w' & w & w0 & E & E0 & E1 & (W1 & W2 & W3) & (D1 & D2 & D3) & Pos & HN); auto.
  unfold spline_mul_ss in E1. rewrite E0 in E1. injection E1 as <-.
  exists w', w. split; [exact E|]. split; [exact E0|]. do 4 (split; [assumption|]). split.
  - apply (wclose_of _ w' w w (Pos Pa Pb)); auto. 
    replace (product_roundings (degrees a) (degrees b)) with (1 + product_roundings (degrees a) (degrees b) - 1)%nat by lia.
    apply HN; [apply id_hom|]. intros i j. rewrite Rmult_1_l. cbn [smul SOps_rnd SOps_R]. apply (Er_r p rnd Hp HR). apply (Er_m p Hp 0 0); apply Er_xp.
    + destruct (lt_dec i (n_coeffs (degrees a))); [left; apply Pa; auto|rewrite nth_overflow; [lra|]]. destruct Wa as (_ & _ & _ & ->). lia.
    + destruct (lt_dec j (n_coeffs (degrees b))); [left; apply Pb; auto|rewrite nth_overflow; [lra|]]. destruct Wb as (_ & _ & _ & ->). lia.
  - destruct (mul_ss_ok MAXB HB a b Wa Wb HL HM) as (q & Q & _ & _ & HV). unfold spline_mul_ss in Q. rewrite E0 in Q. injection Q as <-. exact HV.
Qed.
Lemma nth_nonneg (w : spline R) i : wf w -> positive w -> 0 <= nth i (control_points w) 0.
Proof using Hp HB. intros (_ & _ & _ & L) H. destruct (lt_dec i (n_coeffs (degrees w))); [left; apply H; auto|rewrite nth_overflow; [lra|lia]]. Qed.
Lemma nth_bounded {W} {ow : VOps R W} (pr : W -> R) (n : spline W) (w : spline R) B i : wf n -> wf w -> degrees n = degrees w -> pr v0 = 0 ->
  positive w -> bounded pr B n w -> Rabs (pr (nth i (control_points n) v0)) <= B * nth i (control_points w) 0.
Proof using Hp HB.
  intros (_ & _ & _ & L) (_ & _ & _ & L') D H0 H HB'. destruct (lt_dec i (n_coeffs (degrees w))); [apply HB'; auto|].
  rewrite !nth_overflow by (rewrite ?L, ?L', ?D; lia). rewrite H0, Rabs_R0. lra.
Qed.

(** ** Products *)
Section Mul.
Context {V1 V2 : Type} {o1 : VOps R V1} {o2 : VOps R V2} {M1 : VMod R V1} {M2 : VMod R V2}.
Context (pm' pm : V1 -> V2 -> V) {BL : Bilinear (T := R) (o1 := o1) (o2 := o2) (o3 := ov) pm} (e : nat) (He : (1 <= e)%nat).
Lemma g_mul (r : rspline R V1) (s : rspline R V2) : rwf r -> rwf s -> length (rdegrees s) = length (rdegrees r) ->
  Forall (fun k => k < MAXB)%nat (map2 Nat.add (rdegrees r) (rdegrees s)) -> positive (weight_function r) -> positive (weight_function s) ->
  exists c, R_mul (o := ornd) (o3 := ovr) MAXB pm' r s = Ok c /\ rwf c /\ rdegrees c = map2 Nat.add (rdegrees r) (rdegrees s) /\
    let K := (e + product_roundings (rdegrees r) (rdegrees s) - 1)%nat in
    (gamma p K < 1 -> positive (weight_function c) /\
     forall pr B, hom pr ->
       (forall i j, Er ((1 + u) ^ e) (pr (pm' (nth i (control_points (weighted_spline r)) v0) (nth j (control_points (weighted_spline s)) v0)))
         (pr (pm (nth i (control_points (weighted_spline r)) v0) (nth j (control_points (weighted_spline s)) v0)))
         (B * (nth i (control_points (weight_function r)) 0 * nth j (control_points (weight_function s)) 0))) ->
       approximates K c (rdegrees r) (fun xs => pm (rvalue r xs) (rvalue s xs)) pr B).
Proof using Hp HR HB M v0_r M1 M2 BL He.
  intros (Wu & Ww & Dw) (Wu2 & Ww2 & Dw2) HL HM P1 P2. unfold rdegrees in *.
  destruct (mul_maj p rnd Hp HR MAXB HB v0_r pm' pm e v0 v0 (weighted_spline r) (weighted_spline r) (weighted_spline s) (weighted_spline s) (weight_function r) (weight_function s)) as
    (n' & n & w0 & E & E0 & E1 & (X1 & X2 & X3) & (D1 & D2 & D3) & Pos & HN); auto.
  destruct (mulw (weight_function r) (weight_function s)) as (w' & w & F & F0 & Y1 & Y2 & G1 & G2 & CW & HVw); auto; [congruence|now rewrite Dw, Dw2|].
  rewrite F0 in E1. injection E1 as <-. rewrite Dw, Dw2 in CW, G1. clear D3.
  destruct (spline_mul_ok pm MAXB HB (weighted_spline r) (weighted_spline s) Wu Wu2 HL HM) as (q & Q & _ & _ & HV). rewrite E0 in Q. injection Q as <-.
  unfold R_mul. rewrite E. cbn [bind]. rewrite F. cbn [bind]. rewrite R_mk_ok by congruence.
  assert (Ra : rwf (mkR n' w')) by (split; [|split]; cbn [weighted_spline weight_function]; auto; congruence).
  exists (mkR n' w'). split; [reflexivity|]. split; [exact Ra|]. split; [exact D1|]. cbv zeta.
  set (K := (e + product_roundings (degrees (weighted_spline r)) (degrees (weighted_spline s)) - 1)%nat) in *. intros HG.
  set (D := map2 Nat.add (degrees (weighted_spline r)) (degrees (weighted_spline s))) in *.
  assert (LD : length D = length (degrees (weighted_spline r))) by (unfold D; rewrite length_map2_add; auto).
  destruct (conclude K (mkR n' w') n w D (fun xs => pm (rvalue r xs) (rvalue s xs))) as (A1 & A2); auto; try congruence.
  { rewrite G2, Dw, Dw2. reflexivity. }
  { eapply wclose_up; [|exact CW]. unfold K. lia. }
  { intros xs HX HU _. rewrite LD in HX. rewrite HV by auto. rewrite HVw by congruence.
    pose proof (value_pos _ xs Ww P1 ltac:(congruence) HU) as Q1. pose proof (value_pos _ xs Ww2 P2 ltac:(congruence) HU) as Q2.
    unfold rvalue. rewrite (bl_scale_l (pmul := pm)), (bl_scale_r (pmul := pm)). rewrite <- vm_mul. f_equal. cbn [smul sdiv s1 SOps_R]. change R1 with 1. field. lra. }
  split; [exact A1|]. intros pr B HH HE. destruct (A2 pr B HH (HN pr B HH HE)) as (Z1 & Z2). split; [exact Z1|]. intros xs HX. apply Z2. congruence.
Qed.
End Mul.

(** ** Sums and differences *)
Definition homs (pr : V -> R) : Prop := hom pr /\
  (forall a b, pr (vsub (VOps := ovr) a b) = rnd (pr a - pr b)) /\ (forall a b, pr (vsub (VOps := ov) a b) = pr a - pr b).
Lemma sum_close K pr (opr op : V -> V -> V) (a' b' a b : spline V) (w : spline R) B1 B2 : homs pr -> (opr = vadd (VOps := ovr) /\ op = vadd (VOps := ov) \/ opr = vsub (VOps := ovr) /\ op = vsub (VOps := ov)) ->
  wf a' -> wf b' -> wf a -> wf b -> degrees a' = degrees w -> degrees b' = degrees w -> degrees a = degrees w -> degrees b = degrees w ->
  nclose p K pr B1 a' a w -> nclose p K pr B2 b' b w ->
  nclose p (S K) pr (B1 + B2) (combined_with opr a' b') (combined_with op a b) w.
Proof using Hp HR.
  intros ((P1 & _ & P3 & _) & Q1 & Q2) Hop (_ & _ & _ & La') (_ & _ & _ & Lb') (_ & _ & _ & La) (_ & _ & _ & Lb) Da' Db' Da Db H1 H2 i Hi.
  unfold combined_with. cbn [with_cps control_points]. rewrite !(nth_map2 _ _ _ _ v0 v0) by congruence.
  specialize (H1 i Hi). specialize (H2 i Hi). rewrite Rmult_plus_distr_r.
  destruct Hop as [(-> & ->)|(-> & ->)]; [rewrite P1, P3|rewrite Q1, Q2]; apply (Er_r p rnd Hp HR); [apply Er_add|apply Er_sub]; auto.
Qed.
Lemma combined_value (op : V -> V -> V) (a b : spline V) xs : op = vadd (VOps := ov) \/ op = vsub (VOps := ov) -> wf a -> wf b -> degrees b = degrees a -> length xs = length (degrees a) ->
  value_at (combined_with op a b) xs = op (value_at a xs) (value_at b xs).
Proof using M.
  intros Hop (_ & _ & _ & La) (_ & _ & _ & Lb) D HX. unfold value_at, combined_with. cbn [with_cps degrees control_points]. rewrite D.
  assert (E : bezier (degrees a) xs (fun i => nth i (map2 op (control_points a) (control_points b)) v0) = bezier (degrees a) xs (fun i => op (nth i (control_points a) v0) (nth i (control_points b) v0))).
  { apply bezier_ext. intros i Hi. apply (nth_map2 _ _ _ _ v0 v0); congruence. }
  rewrite E. destruct Hop as [-> | ->]; [apply bezier_add|apply bezier_sub].
Qed.
Lemma g_sum fuel (r s : rspline R V) : rwf r -> rwf s -> length (rdegrees s) = length (rdegrees r) -> (2 <= fuel)%nat ->
  Forall (fun k => k < MAXB)%nat (map2 Nat.add (rdegrees r) (rdegrees s)) -> positive (weight_function r) -> positive (weight_function s) ->
  let K := (product_roundings (rdegrees r) (rdegrees s) + 1)%nat in
  let good op c := rwf c /\ (rdegrees c = rdegrees r \/ rdegrees c = map2 Nat.add (rdegrees r) (rdegrees s)) /\
    (gamma p K < 1 -> positive (weight_function c) /\
     forall pr B1 B2, homs pr -> bounded pr B1 (weighted_spline r) (weight_function r) -> bounded pr B2 (weighted_spline s) (weight_function s) ->
       approximates K c (rdegrees r) (fun xs => op (rvalue (ov := ov) r xs) (rvalue (ov := ov) s xs)) pr (B1 + B2)) in
  (exists c, R_add (o := ornd) (ov := ovr) MAXB fuel r s = Ok c /\ R_add_assign (o := ornd) (ov := ovr) MAXB fuel r s = Ok c /\ good (vadd (VOps := ov)) c) /\
  (exists c, R_sub (o := ornd) (ov := ovr) MAXB fuel r s = Ok c /\ R_sub_assign (o := ornd) (ov := ovr) MAXB fuel r s = Ok c /\ good (vsub (VOps := ov)) c).
Proof using Hp HR HB M v0_r.
  intros (Wu & Ww & Dw) (Wu2 & Ww2 & Dw2) HL Hf HM P1 P2 K good. unfold rdegrees in *.
  unfold R_add, R_add_assign, R_sub, R_sub_assign.
  destruct (spline_eqb (ov := Vs) (weight_function r) (weight_function s)) eqn:Eq.
  - change (spline_eqb (ov := VR) (weight_function r) (weight_function s) = true) in Eq. destruct (spline_eqb_true _ _ Eq) as (Ed & Ec).
    assert (Du : degrees (weighted_spline s) = degrees (weighted_spline r)) by congruence.
    destruct (add_raw (o := ornd) (ov := ovr) fuel (weighted_spline r) (weighted_spline s) Wu Wu2 Du Hf) as (E1 & E2 & E3 & E4).
    assert (C : forall opr op, (opr = vadd (VOps := ovr) /\ op = vadd (VOps := ov) \/ opr = vsub (VOps := ovr) /\ op = vsub (VOps := ov)) ->
      good op (mkR (combined_with opr (weighted_spline r) (weighted_spline s)) (weight_function r))).
    { intros opr op Hop. assert (Wc : wf (combined_with opr (weighted_spline r) (weighted_spline s))) by (apply combined_with_wf; auto).
      assert (Ra : rwf (mkR (combined_with opr (weighted_spline r) (weighted_spline s)) (weight_function r))) by (split; [|split]; cbn [weighted_spline weight_function]; auto).
      split; [exact Ra|]. split; [left; reflexivity|]. intros HG.
      destruct (conclude K (mkR (combined_with opr (weighted_spline r) (weighted_spline s)) (weight_function r)) (combined_with op (weighted_spline r) (weighted_spline s)) (weight_function r)
        (degrees (weighted_spline r)) (fun xs => op (rvalue (ov := ov) r xs) (rvalue (ov := ov) s xs))) as (A1 & A2); auto; try (apply combined_with_wf; auto; fail).
      { intros i Hi. split; [apply P1; auto|]. cbn [weight_function]. apply (Er_up p Hp 0); [lia|]. apply Er_xp. left. apply P1; auto. }
      { intros xs HX HU _. rewrite combined_value; auto; [|destruct Hop as [(_ & ->)|(_ & ->)]; auto]. unfold rvalue. rewrite <- (spline_eqb_value _ _ xs Eq).
        apply (scale_op (ov := ov)). destruct Hop as [(_ & ->)|(_ & ->)]; auto. }
      split; [exact A1|]. intros pr B1 B2 HH HB1 HB2. apply A2; [apply HH|].
      unfold K. rewrite Nat.add_1_r. cbn [weighted_spline]. apply sum_close; auto; try congruence.
      - intros i Hi. apply (Er_up p Hp 0); [lia|]. apply Er_of. apply HB1; auto.
      - intros i Hi. apply (Er_up p Hp 0); [lia|]. apply Er_of. rewrite Ec. apply HB2. rewrite <- Ed. exact Hi. }
    rewrite E1, E2, E3, E4. cbn [bind]. rewrite !R_mk_ok by (cbn [combined_with with_cps degrees]; congruence).
    split; eexists; (split; [reflexivity|]; split; [reflexivity|]); apply C; auto.
  - destruct (mul_maj p rnd Hp HR MAXB HB v0_r (fun q c => vscale (VOps := ovr) c q) (fun q c => vscale (VOps := ov) c q) 1 v0 0
       (weighted_spline r) (weighted_spline r) (weight_function s) (weight_function s) (weight_function r) (weight_function s)) as
      (a' & a & w1 & Ea' & Ea & Ew1 & (X1 & X2 & _) & (D1 & D2 & _) & _ & HNa); auto; try congruence.
    destruct (mul_maj p rnd Hp HR MAXB HB v0_r (fun c q => vscale (VOps := ovr) c q) (fun c q => vscale (VOps := ov) c q) 1 0 v0
       (weight_function r) (weight_function r) (weighted_spline s) (weighted_spline s) (weight_function r) (weight_function s)) as
      (b' & b & w2 & Eb' & Eb & Ew2 & (Z1 & Z2 & _) & (G1 & G2 & _) & _ & HNb); auto; try congruence.
    destruct (mulw (weight_function r) (weight_function s)) as (w' & w & F & F0 & Y1 & Y2 & G3 & G4 & CW & HVw); auto; [congruence|now rewrite Dw, Dw2|].
    rewrite F0 in Ew1, Ew2. injection Ew1 as <-. injection Ew2 as <-. rewrite ?Dw, ?Dw2 in *.
    destruct (spline_mul_ok (fun q c => vscale (VOps := ov) c q) MAXB HB (weighted_spline r) (weight_function s) Wu Ww2) as (q & Q & _ & _ & HVa); [now rewrite Dw2|now rewrite Dw2|].
    rewrite Ea in Q. injection Q as <-.
    destruct (spline_mul_ok (fun c q => vscale (VOps := ov) c q) MAXB HB (weight_function r) (weighted_spline s) Ww Wu2) as (q & Q & _ & _ & HVb); [now rewrite Dw|now rewrite Dw|].
    rewrite Eb in Q. injection Q as <-.
    set (D := map2 Nat.add (degrees (weighted_spline r)) (degrees (weighted_spline s))) in *.
    assert (LD : length D = length (degrees (weighted_spline r))) by (unfold D; rewrite length_map2_add; auto).
    assert (Dab : degrees b' = degrees a') by congruence. assert (Dab0 : degrees b = degrees a) by congruence.
    destruct (add_raw (o := ornd) (ov := ovr) fuel a' b' X1 Z1 Dab Hf) as (E1 & E2 & E3 & E4).
    assert (C : forall opr op, (opr = vadd (VOps := ovr) /\ op = vadd (VOps := ov) \/ opr = vsub (VOps := ovr) /\ op = vsub (VOps := ov)) ->
      good op (mkR (combined_with opr a' b') w')).
    { intros opr op Hop. assert (Wc : wf (combined_with opr a' b')) by (apply combined_with_wf; auto).
      assert (Ra : rwf (mkR (combined_with opr a' b') w')) by (split; [|split]; cbn [weighted_spline weight_function combined_with with_cps degrees]; auto; congruence).
      split; [exact Ra|]. split; [right; exact D1|]. intros HG.
      destruct (conclude K (mkR (combined_with opr a' b') w') (combined_with op a b) w D
        (fun xs => op (rvalue (ov := ov) r xs) (rvalue (ov := ov) s xs))) as (A1 & A2); auto; try (apply combined_with_wf; auto; fail).
      { eapply wclose_up; [|exact CW]. unfold K. lia. }
      { intros xs HX HU _. rewrite LD in HX. assert (Ho : op = vadd (VOps := ov) \/ op = vsub (VOps := ov)) by (destruct Hop as [(_ & ->)|(_ & ->)]; auto).
        rewrite combined_value; auto; [|congruence]. rewrite HVa, HVb, HVw by (rewrite ?Dw; auto).
        pose proof (value_pos _ xs Ww P1 ltac:(congruence) HU) as Q1. pose proof (value_pos _ xs Ww2 P2 ltac:(congruence) HU) as Q2.
        pose proof (quot_sum op (value_at (weighted_spline r) xs) (value_at (weighted_spline s) xs) (value_at (weight_function r) xs) (value_at (weight_function s) xs) Ho) as QS.
        cbn [s0 SOps_R] in QS. change R0 with 0 in QS. apply QS; lra. }
      split; [exact A1|]. intros pr B1 B2 HH HB1 HB2. enough (HX : nclose p K pr (B1 + B2) (combined_with opr a' b') (combined_with op a b) w).
      { destruct (A2 pr (B1 + B2) (proj1 HH) HX) as (J1 & J2). split; [exact J1|]. intros xs HX'. apply J2. congruence. }
      destruct HH as (HH & HS). pose proof HH as (_ & _ & _ & h4 & h5). pose proof HH as (_ & h2 & _).
      unfold K. rewrite Nat.add_1_r. cbn [weighted_spline]. apply sum_close; auto; try congruence; [split; auto| |].
      - replace (product_roundings (degrees (weighted_spline r)) (degrees (weighted_spline s))) with (1 + product_roundings (degrees (weighted_spline r)) (degrees (weighted_spline s)) - 1)%nat by lia.
        apply HNa; auto. intros i j. rewrite h4, h2. replace (B1 * (nth i (control_points (weight_function r)) 0 * nth j (control_points (weight_function s)) 0)) with
          (nth j (control_points (weight_function s)) 0 * (B1 * nth i (control_points (weight_function r)) 0)) by ring.
        apply (Er_r p rnd Hp HR). apply (Er_m p Hp 0 0); [apply Er_xp, nth_nonneg; auto|]. apply Er_of. apply nth_bounded; auto.
      - replace (product_roundings (degrees (weighted_spline r)) (degrees (weighted_spline s))) with (1 + product_roundings (degrees (weighted_spline r)) (degrees (weighted_spline s)) - 1)%nat by lia.
        apply HNb; auto. intros i j. rewrite h4, h2. replace (B2 * (nth i (control_points (weight_function r)) 0 * nth j (control_points (weight_function s)) 0)) with
          (nth i (control_points (weight_function r)) 0 * (B2 * nth j (control_points (weight_function s)) 0)) by ring.
        apply (Er_r p rnd Hp HR). apply (Er_m p Hp 0 0); [apply Er_xp, nth_nonneg; auto|]. apply Er_of. apply nth_bounded; auto. }
    unfold spline_mul_vs, spline_mul_sv. rewrite Ea'. cbn [bind]. rewrite Eb'. cbn [bind]. rewrite E1, E2, E3, E4. cbn [bind]. rewrite F. cbn [bind].
    rewrite !R_mk_ok by (cbn [combined_with with_cps degrees]; congruence).
    split; eexists; (split; [reflexivity|]; split; [reflexivity|]); apply C; auto.
Qed.

(** ** Compositions *)
Lemma compose_rp_of d (outer : rspline R V) (inner : spline (point R d)) n w :
  Compose (o := ornd) (ov := ovr) MAXB (weighted_spline outer) inner = Ok n -> Compose (o := ornd) (ov := Vs) MAXB (weight_function outer) inner = Ok w ->
  Compose_RP (o := ornd) (ov := ovr) MAXB outer inner = R_mk n w.
Proof using. intros E F. unfold Compose_RP. rewrite E. cbn [bind]. rewrite F. reflexivity. Qed.
Lemma g_comp (outer : rspline R V) (inner : spline (point R (length (rdegrees outer)))) : rwf outer -> wf inner ->
  (forall q k, In q (control_points inner) -> (k < length (rdegrees outer))%nat -> 0 <= coord _ q k <= 1) ->
  Forall (fun p => list_sum (rdegrees outer) * p < MAXB)%nat (degrees inner) -> Forall (fun p => p < MAXB)%nat (rdegrees outer) ->
  positive (weight_function outer) ->
  exists c, Compose_RP (o := ornd) (ov := ovr) MAXB outer inner = Ok c /\ rwf c /\ rdegrees c = map (Nat.mul (list_sum (rdegrees outer))) (degrees inner) /\
    let K := compose_roundings (rdegrees outer) (degrees inner) in
    (gamma p K < 1 -> positive (weight_function c) /\
     forall pr B, hom pr -> bounded pr B (weighted_spline outer) (weight_function outer) ->
       approximates K c (degrees inner) (fun xs => rvalue (ov := ov) outer (plist _ (value_at inner xs))) pr B).
Proof using Hp HR HB M v0_r.
  destruct outer as [ou ow]. unfold rdegrees. cbn [weighted_spline weight_function]. intros (Wu & Ww & Dw) Wi HC HF HM HP. cbn [weighted_spline weight_function] in Wu, Ww, Dw.
  assert (exists wc, ow = mk (degrees ou) wc) as (wc & ->) by (exists (control_points ow); rewrite <- Dw; apply wf_eq_mk; auto).
  assert (Lwc : length wc = n_coeffs (degrees ou)) by (destruct Ww as (_ & _ & _ & L); exact L).
  destruct (comp_maj p rnd Hp HR MAXB HB v0_r ou Wu wc Lwc inner Wi HC HF HM) as (n' & n & w & E & E0 & Ew & (X1 & X2 & X3) & (D1 & D2 & D3) & HV & HVw & Pos & HN).
  destruct (comp_maj p rnd Hp HR MAXB HB (V := R) (ovr := Vs) (ov := VR) eq_refl (mk (degrees ou) wc) Ww wc Lwc inner Wi HC HF HM) as (w' & w0 & w1 & F & F0 & Fw & (Y1 & Y2 & Y3) & (G1 & G2 & G3) & _ & _ & _ & HNw).
  cbn [mk degrees] in F, F0, Fw, G1, G2, G3, HNw.
  assert (EE : Ok w0 = Ok w) by exact (eq_trans (eq_sym F0) Ew). injection EE as ->. 
  assert (EE : Ok w1 = Ok w) by exact (eq_trans (eq_sym Fw) Ew). injection EE as ->.
  pose proof (wclose_of _ _ _ _ (Pos HP) (HNw (fun x => x) 1 id_hom HP (pos_bounded _ HP)) (fun _ => eq_refl)) as CW.
  assert (Ra : rwf (mkR n' w')) by (split; [|split]; cbn [weighted_spline weight_function]; auto; congruence).
  exists (mkR n' w'). split; [refine (eq_trans (compose_rp_of _ (mkR ou (mk (degrees ou) wc)) inner n' w' E F) _); apply R_mk_ok; congruence|].
  split; [exact Ra|]. split; [exact D1|]. cbv zeta. set (K := compose_roundings (degrees ou) (degrees inner)) in *. intros HG.
  set (D := map (Nat.mul (list_sum (degrees ou))) (degrees inner)) in *.
  assert (LD : length D = length (degrees inner)) by (unfold D; apply map_length).
  destruct (conclude K (mkR n' w') n w D (fun xs => rvalue (ov := ov) (mkR ou (mk (degrees ou) wc)) (plist _ (value_at inner xs)))) as (A1 & A2); auto; try congruence.
  { exact (eq_trans D2 D1). }
  { exact (eq_trans D3 D1). }
  { intros xs HX HU _. assert (HX' : length xs = length (degrees inner)) by (rewrite HX; exact LD). rewrite (HV xs HX'), (HVw xs HX'). reflexivity. }
  split; [exact A1|]. intros pr B HH HBd. destruct (A2 pr B HH (HN pr B HH HP HBd)) as (Z1 & Z2). split; [exact Z1|]. intros xs HX. apply Z2. rewrite HX. exact (eq_sym LD).
Qed.
End Gen.
