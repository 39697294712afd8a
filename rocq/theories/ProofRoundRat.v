(** Error propagation through the operations on rational splines with positive weights. *)
From Coq Require Import Arith Lia List ZArith NArith Bool Reals Lra Psatz.
From Verif Require Import Prelude Scalar Spec SpecSpline SpecRational Sums Order Coord ModelBasis ModelSpline ModelRational
  ModelRound ModelRoundMul SpecRound SpecRoundMul ProofIndex ProofBasis ProofEval ProofElevate ProofArith ProofSplit ProofMul ProofCompose
  ProofRational ProofRational2 ProofCasteljau ProofRaw ProofRound ProofRoundEval ProofRoundOps ProofRawMul ProofRoundMul ProofRoundCompose
  ClaimsB ClaimsE ClaimsU ClaimsX ClaimsRoundOps ClaimsRoundMul ModelRoundRat SpecRoundRat.
Import ListNotations.
Local Open Scope R_scope.

Lemma dc_scal B x f r j : dc (V := R) x (fun i => B * f i) r j = B * dc (V := R) x f r j.
Proof. revert j; induction r; intros j; cbn [dc]; auto. rewrite !IHr. cbn. ring. Qed.
Lemma dc_pos x f r j : 0 <= x <= 1 -> (forall i, (j <= i <= j + r)%nat -> 0 < f i) -> 0 < dc (V := R) x f r j.
Proof.
  intros Hx. revert j; induction r; intros j H; cbn [dc]; [apply H; lia|]. cbn [vadd vscale VOps_scalar sadd smul ssub s1 SOps_R].
  assert (A := IHr j ltac:(intros; apply H; lia)). assert (C := IHr (S j) ltac:(intros; apply H; lia)). change R1 with 1. nra.
Qed.
Lemma pow_bern (k : nat) a : 1 <= a -> INR k * (a - 1) <= a ^ k - 1.
Proof.
  intros Ha. induction k; [simpl; lra|]. rewrite S_INR. cbn [pow]. assert (1 <= a ^ k) by (apply pow_R1_Rle; auto). nra.
Qed.
Lemma relev_scal B q f i : relev (V := R) q (fun j => B * f j) i = B * relev (V := R) q f i.
Proof. unfold relev. destruct (i =? 0)%nat; auto. destruct (i =? q + 1)%nat; auto. cbn. ring. Qed.
Lemma relev_pos q f i : (i <= q + 1)%nat -> (forall j, (j <= q)%nat -> 0 < f j) -> 0 < relev (V := R) q f i.
Proof.
  intros Hi H. unfold relev. destruct (Nat.eqb_spec i 0) as [->|Hi0]; [apply H; lia|].
  destruct (Nat.eqb_spec i (q + 1)) as [->|Hi1]; [apply H; lia|].
  rewrite !sofnat_INR. cbn [smul sadd sdiv ssub s1 SOps_R vadd vscale VOps_scalar]. change R1 with 1.
  set (a := INR i). set (b := INR (q + 1)).
  assert (B0 : 0 < b) by (apply lt_0_INR; lia). assert (A0 : 0 <= a) by apply pos_INR.
  assert (AB : a <= b) by (apply le_INR; lia).
  assert (F0 : 0 <= a * (1 / b) <= 1).
  { assert (IB : 0 < / b) by (apply Rinv_0_lt_compat; auto). unfold Rdiv. rewrite Rmult_1_l. split; [apply Rmult_le_pos; lra|].
    apply (Rmult_le_reg_r b); auto. rewrite Rmult_assoc, Rinv_l by lra. lra. }
  pose proof (H i ltac:(lia)). pose proof (H (i - 1)%nat ltac:(lia)). set (t := a * (1 / b)) in *. clearbody t. nra.
Qed.
Lemma bez_scale (B : R) degs xs f : length xs = length degs -> bezier degs xs (fun i => B * f i) = B * bezier (V := R) degs xs f.
Proof. intros HL. exact (bezier_scale (T := R) (V := R) degs xs B f). Qed.
Lemma bez_le degs xs f g : length xs = length degs -> in_unit_box xs -> (forall i, (i < n_coeffs degs)%nat -> f i <= g i) ->
  bezier (V := R) degs xs f <= bezier (V := R) degs xs g.
Proof.
  intros HL HX H. assert (D : 0 <= bezier degs xs (fun i => vsub (V := R) (g i) (f i))).
  { rewrite <- dct_bezier by auto. apply dct_nonneg; auto. intros i Hi. cbn. specialize (H i Hi). lra. }
  rewrite bezier_sub in D. cbn [vsub VOps_scalar ssub SOps_R] in D. lra.
Qed.
Lemma bez_abs degs xs f g : length xs = length degs -> in_unit_box xs -> (forall i, (i < n_coeffs degs)%nat -> Rabs (f i) <= g i) ->
  Rabs (bezier (V := R) degs xs f) <= bezier (V := R) degs xs g.
Proof.
  intros HL HX H. apply Rabs_le. split.
  - cut (bezier degs xs (fun i => vopp (V := R) (f i)) <= bezier (V := R) degs xs g).
    { rewrite bezier_opp. cbn [vopp VOps_scalar sopp SOps_R]. lra. }
    apply bez_le; auto. intros i Hi. specialize (H i Hi). cbn [vopp VOps_scalar sopp SOps_R]. unfold Rabs in H. destruct (Rcase_abs (f i)); lra.
  - apply bez_le; auto. intros i Hi. specialize (H i Hi). unfold Rabs in H. destruct (Rcase_abs (f i)); lra.
Qed.
Lemma bez_pos degs xs f : length xs = length degs -> in_unit_box xs -> (forall i, (i < n_coeffs degs)%nat -> 0 < f i) ->
  0 < bezier (V := R) degs xs f.
Proof.
  intros HL HX. rewrite <- dct_bezier by auto. revert xs f HL HX. induction degs as [|q degs IH]; intros [|x xs] f HL HX H; try discriminate.
  - apply H. unfold n_coeffs; simpl; lia.
  - cbn [dct]. inversion HX; subst. apply IH; auto. intros m Hm. apply dc_pos; auto. intros i Hi. apply H. rewrite n_coeffs_cons. nia.
Qed.
Lemma Er_bez g degs xs f' f F : length xs = length degs -> in_unit_box xs -> 1 <= g -> (forall i, (i < n_coeffs degs)%nat -> Er g (f' i) (f i) (F i)) ->
  Er g (bezier (V := R) degs xs f') (bezier (V := R) degs xs f) (bezier (V := R) degs xs F).
Proof.
  intros HL HX Hg H. split.
  - change (bezier degs xs f' - bezier degs xs f) with (vsub (V := R) (bezier degs xs f') (bezier degs xs f)).
    rewrite <- (bezier_sub (V := R)), <- bez_scale by auto. apply bez_abs; auto. intros i Hi. apply (H i Hi).
  - apply bez_abs; auto. intros i Hi. apply (H i Hi).
Qed.
Lemma quotient e B N' N W' W : 0 <= e < 1 -> 0 < W -> Er (1 + e) W' W W -> Er (1 + e) N' N (B * W) ->
  0 < W' /\ Rabs (1 / W' * N' - 1 / W * N) <= quotient_error e B.
Proof.
  intros He HW (E1 & _) (E2 & E3). replace (1 + e - 1) with e in * by ring.
  assert (L : (1 - e) * W <= W') by (unfold Rabs in E1; destruct (Rcase_abs (W' - W)); lra).
  assert (P : 0 < (1 - e) * W) by (apply Rmult_lt_0_compat; lra). assert (HW' : 0 < W') by lra. split; auto.
  assert (HB : 0 <= B).
  { destruct (Rle_lt_dec 0 B); auto. exfalso. pose proof (Rabs_pos N). nra. }
  replace (1 / W' * N' - 1 / W * N) with (((N' - N) - N * / W * (W' - W)) * / W') by (field; lra).
  rewrite Rabs_mult, (Rabs_right (/ W')) by (left; apply Rinv_0_lt_compat; auto).
  assert (T : Rabs (N' - N - N * / W * (W' - W)) <= 2 * e * B * W).
  { unfold Rminus at 1. eapply Rle_trans; [apply Rabs_triang|]. rewrite Rabs_Ropp, !Rabs_mult.
    rewrite (Rabs_right (/ W)) by (left; apply Rinv_0_lt_compat; auto).
    assert (Q : Rabs N * / W <= B).
    { apply (Rmult_le_reg_r W); auto. rewrite Rmult_assoc, Rinv_l, Rmult_1_r by lra. exact E3. }
    assert (0 <= Rabs N * / W) by (apply Rmult_le_pos; [apply Rabs_pos|left; apply Rinv_0_lt_compat; auto]).
    assert (Rabs N * / W * Rabs (W' - W) <= B * (e * W)) by (apply Rmult_le_compat; auto; apply Rabs_pos). lra. }
  unfold quotient_error, Rdiv. apply (Rmult_le_reg_r W'); auto. rewrite Rmult_assoc, Rinv_l, Rmult_1_r by lra.
  eapply Rle_trans; [exact T|]. apply Rle_trans with (2 * e * B * / (1 - e) * ((1 - e) * W)).
  - right. field. lra.
  - apply Rmult_le_compat_l; auto. apply Rmult_le_pos; [apply Rmult_le_pos; [lra|auto]|]. left. apply Rinv_0_lt_compat. lra.
Qed.
Lemma growth e B N' N W' W : 0 <= e < 1 -> 0 < W -> Er (1 + e) W' W W -> Er (1 + e) N' N (B * W) -> 0 < W' /\ Rabs N' <= quotient_growth e B * W'.
Proof.
  intros He HW E1 E2. pose proof (Er_abs _ _ _ _ E2) as A. destruct E1 as (E1 & _). replace (1 + e - 1) with e in * by ring.
  assert (L : (1 - e) * W <= W') by (unfold Rabs in E1; destruct (Rcase_abs (W' - W)); lra).
  assert (P : 0 < (1 - e) * W) by (apply Rmult_lt_0_compat; lra). split; [lra|].
  pose proof (Er_pos _ _ _ _ E2) as B0. eapply Rle_trans; [exact A|]. unfold quotient_growth, Rdiv.
  apply Rle_trans with ((1 + e) * B * / (1 - e) * ((1 - e) * W)); [right; field; lra|]. apply Rmult_le_compat_l; auto.
  assert (0 <= B) by (destruct (Rle_lt_dec 0 B); auto; exfalso; nra).
  apply Rmult_le_pos; [nra|]. left. apply Rinv_0_lt_compat. lra.
Qed.

Lemma nth_slice (off q cnt i : nat) : (0 < off)%nat -> (i < off * (q + 1) * cnt)%nat ->
  exists a j m, (a < off)%nat /\ (j <= q)%nat /\ (m < cnt)%nat /\ i = (a + off * (j + (q + 1) * m))%nat.
Proof.
  intros Hoff Hi. exists (i mod off)%nat, (i / off mod (q + 1))%nat, (i / off / (q + 1))%nat.
  split; [apply Nat.mod_upper_bound; lia|]. split; [pose proof (Nat.mod_upper_bound (i / off) (q + 1)); lia|]. split.
  - apply Nat.div_lt_upper_bound; [lia|]. apply Nat.div_lt_upper_bound; [lia|]. nia.
  - rewrite (Nat.div_mod i off) at 1 by lia. rewrite (Nat.div_mod (i / off) (q + 1)) at 1 by lia. lia.
Qed.
Lemma slice_in (off q cnt a j m : nat) : (a < off)%nat -> (j <= q)%nat -> (m < cnt)%nat -> (a + off * (j + (q + 1) * m) < off * (q + 1) * cnt)%nat.
Proof.
  intros. assert (off * ((q + 1) * S m) <= off * ((q + 1) * cnt))%nat by (apply Nat.mul_le_mono_l, Nat.mul_le_mono_l; lia). nia.
Qed.
Ltac split_and := match goal with |- _ /\ _ => split end.

Section Gen.
Context (p : nat) (rnd : R -> R) (Hp : (0 < p)%nat) (HR : nearest p rnd).
Let u := / 2 ^ p.
Let Hu : 0 <= u := unit_pos p.
Let Hu1 : u < 1 := unit_lt_1 p Hp.
Let Hr : forall x, Rabs (rnd x - x) <= u * Rabs x := nearest_error p rnd Hp HR.
Notation ornd := (SOps_rnd rnd).
Notation Vs := (VOps_scalar R (o := ornd)).

(** ** One line of coefficients *)


Lemma relev_maj q f F i : (Z.of_nat (q + 1) < 2 ^ Z.of_nat p)%Z -> (i <= q + 1)%nat -> (forall j, (j <= q)%nat -> Rabs (f j) <= F j) ->
  Er ((1 + u) ^ (2 * q + 3)) (relev (o := ornd) (ov := Vs) q f i) (relev (V := R) q f i) (relev (V := R) q F i).
Proof using Hp HR.
  intros Hq Hi HM.
  assert (Z : forall x A, Rabs x <= A -> Er ((1 + u) ^ (2 * q + 3)) x x A).
  { intros x A H. apply (Er_up p Hp 0); [lia|]. apply Er_of. auto. }
  unfold relev. destruct (Nat.eqb_spec i 0) as [->|Hi0]; [apply Z, HM; lia|].
  destruct (Nat.eqb_spec i (q + 1)) as [->|Hi1]; [apply Z, HM; lia|].
  rewrite !sofnat_INR, !(sofnat_rnd p rnd Hp HR) by lia. cbn [smul sadd sdiv ssub s1 SOps_R SOps_rnd vadd vscale VOps_scalar]. change R1 with 1.
  set (a := INR i). set (b := INR (q + 1)).
  assert (Eb : b = INR q + 1) by (unfold b; rewrite plus_INR; simpl; lra).
  assert (B0 : 0 < b) by (apply lt_0_INR; lia). assert (A0 : 0 <= a) by apply pos_INR.
  assert (AB : a <= INR q) by (apply le_INR; lia).
  assert (IB : 0 < / b) by (apply Rinv_0_lt_compat; auto).
  assert (F0 : 0 <= a * (1 / b) <= INR q * (1 - a * (1 / b))).
  { unfold Rdiv. rewrite Rmult_1_l. split; [apply Rmult_le_pos; lra|]. apply (Rmult_le_reg_r b); auto.
    replace (INR q * (1 - a * / b) * b) with (INR q * (b - a)) by (field; lra). rewrite Rmult_assoc, Rinv_l by lra. rewrite Eb. nra. }
  assert (E1 : Er ((1 + u) ^ 1) (rnd (1 / b)) (1 / b) (1 / b)) by (apply (Er_r p rnd Hp HR), Er_xp; unfold Rdiv; lra).
  assert (E2 : Er ((1 + u) ^ 2) (rnd (a * rnd (1 / b))) (a * (1 / b)) (a * (1 / b))).
  { apply (Er_r p rnd Hp HR). apply (Er_m p Hp 0 1); auto. apply Er_xp. auto. }
  set (fr := rnd (a * rnd (1 / b))) in *. set (fe := a * (1 / b)) in *.
  assert (F1 : 0 <= 1 - fe) by (pose proof (pos_INR q); nra).
  assert (E3 : Er ((1 + u) ^ (2 * q)) (1 - fr) (1 - fe) (1 - fe)).
  { split; [|rewrite Rabs_right; lra]. replace (1 - fr - (1 - fe)) with (- (fr - fe)) by ring. rewrite Rabs_Ropp.
    eapply Rle_trans; [apply (proj1 E2)|]. apply Rle_trans with (INR q * ((1 + u) ^ 2 - 1) * (1 - fe)).
    - assert (P := u_pow u Hu 2). nra.
    - apply Rmult_le_compat_r; auto. rewrite pow_mult. apply pow_bern. apply (u_pow u Hu). }
  assert (Hqp : (1 <= q)%nat) by lia.
  assert (M1 := HM i ltac:(lia)). assert (M2 := HM (i - 1)%nat ltac:(lia)).
  replace (2 * q + 3)%nat with (S (S (S (2 * q)))) by lia.
  apply (Er_r p rnd Hp HR). apply Er_add.
  - apply (Er_r p rnd Hp HR). replace (S (2 * q)) with (S (2 * q) + 0)%nat by lia. apply (Er_m p Hp); [apply (Er_r p rnd Hp HR); exact E3|]. apply Er_of. auto.
  - apply (Er_up p Hp 3); [lia|]. apply (Er_r p rnd Hp HR). apply (Er_m p Hp 2 0); auto. apply Er_of. auto.
Qed.

(** ** Numerator and denominator *)
Context {V : Type} {ovr : VOps R V} {ov : VOps R V} {M : VMod R V} (v0_r : v0 (VOps := ovr) = v0 (VOps := ov)).
Notation hom pr := (hom_to (o3 := ov) (o3r := ovr) rnd pr).

(** The computed denominator [w'] is close to the positive [w], the computed numerator [s'] to [s]
    relative to [B] times the denominator. *)
Definition wclose (K : nat) (w' w : spline R) : Prop := forall i, (i < n_coeffs (degrees w))%nat ->
  0 < nth i (control_points w) 0 /\ Er ((1 + u) ^ K) (nth i (control_points w') 0) (nth i (control_points w) 0) (nth i (control_points w) 0).
Definition nclose (K : nat) (pr : V -> R) (B : R) (s' s : spline V) (w : spline R) : Prop := forall i, (i < n_coeffs (degrees w))%nat ->
  Er ((1 + u) ^ K) (pr (nth i (control_points s') v0)) (pr (nth i (control_points s) v0)) (B * nth i (control_points w) 0).
Definition bounded (pr : V -> R) (B : R) (s : spline V) (w : spline R) : Prop := forall i, (i < n_coeffs (degrees w))%nat ->
  Rabs (pr (nth i (control_points s) v0)) <= B * nth i (control_points w) 0.
Definition positive (w : spline R) : Prop := forall i, (i < n_coeffs (degrees w))%nat -> 0 < nth i (control_points w) 0.

(** Bernstein sums of the coefficients. *)


(** From the coefficients to the values. *)
Lemma rat_values K (r' r : rspline R V) pr B : rwf r' -> rwf r -> rdegrees r' = rdegrees r -> hom pr -> gamma p K < 1 ->
  wclose K (weight_function r') (weight_function r) -> nclose K pr B (weighted_spline r') (weighted_spline r) (weight_function r) ->
  (forall i, (i < n_coeffs (rdegrees r))%nat -> 0 < nth i (control_points (weight_function r')) 0 /\
     Rabs (pr (nth i (control_points (weighted_spline r')) v0)) <= quotient_growth (gamma p K) B * nth i (control_points (weight_function r')) 0) /\
  forall xs, length xs = length (rdegrees r) -> in_unit_box xs ->
    0 < value_at (weight_function r) xs /\ 0 < value_at (weight_function r') xs /\
    Rabs (pr (rvalue (ov := ov) r' xs) - pr (rvalue (ov := ov) r xs)) <= quotient_error (gamma p K) B.
Proof using Hp HR M.
  intros (W1' & W2' & D') (W1 & W2 & D) HD (P1 & P2 & _) HG HW HN. unfold rdegrees in *. set (degs := degrees (weighted_spline r)) in *.
  assert (G0 : 0 <= gamma p K) by (apply gamma_pos; auto).
  assert (EG : (1 + u) ^ K = 1 + gamma p K) by (unfold gamma; fold u; ring). unfold wclose, nclose in *. rewrite EG in *. rewrite D in HW, HN.
  split.
  - intros i Hi. destruct (HW i Hi) as (A & A1). apply (growth (gamma p K) B) with (pr (nth i (control_points (weighted_spline r)) v0)) (nth i (control_points (weight_function r)) 0); auto.
  - intros xs HX HU.
    assert (A : 0 < value_at (weight_function r) xs) by (unfold value_at; rewrite D; apply bez_pos; auto; intros i Hi; apply (HW i Hi)).
    assert (E1 : Er (1 + gamma p K) (value_at (weight_function r') xs) (value_at (weight_function r) xs) (value_at (weight_function r) xs)).
    { unfold value_at. rewrite D', HD, D. apply Er_bez; auto; [lra|]. intros i Hi. apply (HW i Hi). }
    assert (E2 : Er (1 + gamma p K) (pr (value_at (weighted_spline r') xs)) (pr (value_at (weighted_spline r) xs)) (B * value_at (weight_function r) xs)).
    { assert (EW : B * value_at (weight_function r) xs = bezier (V := R) degs xs (fun i => B * nth i (control_points (weight_function r)) 0)).
      { unfold value_at. rewrite D. symmetry. apply bez_scale; auto. }
      rewrite EW. unfold value_at. rewrite HD. fold degs. rewrite (pr_bezier (ov := ov) pr P1 P2) by congruence. rewrite (pr_bezier (ov := ov) pr P1 P2) by congruence.
      apply Er_bez; auto; lra. }
    split; auto. unfold rvalue. rewrite !P2. apply quotient; auto.
Qed.

(** ** Subdivision *)

Lemma split_maj (s : spline V) (w : spline R) x k : wf s -> wf w -> degrees w = degrees s -> (k < length (degrees s))%nat -> 0 < x < 1 ->
  exists l r l0 r0 lw rw, SplitAtPosition (o := ornd) (ov := ovr) s x k = Ok [l; r] /\ SplitAtPosition (ov := ov) s x k = Ok [l0; r0] /\
    SplitAtPosition (V := R) w x k = Ok [lw; rw] /\
    (wf l /\ wf r /\ wf l0 /\ wf r0 /\ wf lw /\ wf rw) /\
    (degrees l = degrees s /\ degrees r = degrees s /\ degrees l0 = degrees s /\ degrees r0 = degrees s /\ degrees lw = degrees s /\ degrees rw = degrees s) /\
    (positive w -> positive lw /\ positive rw) /\
    forall pr B, hom pr -> bounded pr B s w ->
      nclose (3 * nth k (degrees s) 0%nat) pr B l l0 lw /\ nclose (3 * nth k (degrees s) 0%nat) pr B r r0 rw.
Proof using Hp HR M v0_r.
  intros Hw Hww Dw Hk Hx. set (q := nth k (degrees s) 0%nat). set (off := n_coeffs (firstn k (degrees s))).
  set (cnt := n_coeffs (skipn (S k) (degrees s))).
  assert (H0 : slt (s0 (SOps := SOps_R)) x) by (unfold slt; cbn [sltb s0 SOps_R]; destruct (Rlt_dec R0 x) as [|N]; auto; change R0 with 0 in N; lra).
  assert (H1 : slt x (s1 (SOps := SOps_R))) by (unfold slt; cbn [sltb s1 SOps_R]; destruct (Rlt_dec x R1) as [|N]; auto; change R1 with 1 in N; lra).
  assert (H0r : slt (H := ornd) (s0 (SOps := ornd)) x) by (unfold slt; cbn [sltb s0 SOps_rnd]; destruct (Rlt_dec 0 x) as [|N]; auto; lra).
  assert (H1r : slt (H := ornd) x (s1 (SOps := ornd))) by (unfold slt; cbn [sltb s1 SOps_rnd]; destruct (Rlt_dec x 1) as [|N]; auto; lra).
  destruct (SplitAtPosition_raw (o := ornd) (ov := ovr) s x k Hw Hk H0r H1r) as (c1 & c2 & E & L1 & L2 & N1).
  destruct (SplitAtPosition_raw (ov := ov) s x k Hw Hk H0 H1) as (d1 & d2 & E' & L1' & L2' & N2).
  destruct (SplitAtPosition_raw (V := R) w x k Hww ltac:(now rewrite Dw) H0 H1) as (e1 & e2 & E'' & L1'' & L2'' & N3).
  rewrite Dw in N3. fold q off cnt in N1, N2, N3.
  assert (Hoff : (0 < off)%nat) by apply n_coeffs_pos.
  assert (Etot : n_coeffs (degrees s) = (off * (q + 1) * cnt)%nat).
  { rewrite (n_coeffs_split (degrees s) k), (skipn_cons_nth 0%nat (degrees s) k) by auto.
    rewrite n_coeffs_cons. fold q off cnt. lia. }
  assert (Lc : length (control_points s) = n_coeffs (degrees s)) by apply Hw.
  assert (Lw : length (control_points w) = n_coeffs (degrees w)) by apply Hww.
  exists (with_cps s c1), (with_cps s c2), (with_cps s d1), (with_cps s d2), (with_cps w e1), (with_cps w e2).
  split; [exact E|]. split; [exact E'|]. split; [exact E''|].
  split; [repeat split_and; apply with_cps_wf; auto; congruence|]. split; [cbn [with_cps degrees]; repeat split; auto|].
  split.
  - intros HP. unfold positive in *. cbn [with_cps degrees control_points]. rewrite Dw in *. rewrite Etot.
    split; intros i Hi; destruct (nth_slice off q cnt i Hoff Hi) as (a & j & m & Ha & Hj & Hm & ->);
      destruct (N3 a j m Ha Hj Hm) as (A1 & A2); change (v0 (V := R)) with 0 in A1, A2; rewrite ?A1, ?A2;
      (apply dc_pos; [lra|]; intros i Hi'; apply HP; rewrite Etot; apply slice_in; auto; lia).
  - intros pr B (P1 & P2 & P3 & P4 & P5) HB. unfold nclose, bounded in *. cbn [with_cps degrees control_points]. rewrite Dw in *. rewrite Etot.
    split; intros i Hi; destruct (nth_slice off q cnt i Hoff Hi) as (a & j & m & Ha & Hj & Hm & ->);
      destruct (N1 a j m Ha Hj Hm) as (A1 & A2); destruct (N2 a j m Ha Hj Hm) as (B1 & B2); destruct (N3 a j m Ha Hj Hm) as (C1 & C2);
      rewrite v0_r in A1, A2; change (v0 (V := R)) with 0 in C1, C2;
      rewrite ?A1, ?A2, ?B1, ?B2, ?C1, ?C2, (pr_dc_r rnd pr P3 P4), (pr_dc pr P1 P2), <- dc_scal.
    + apply (Er_up p Hp (0 + 3 * j)); [lia|]. apply (dc_err rnd u Hu Hr); [lra|]. intros i Hi'. apply Er_of. apply HB. rewrite Etot. apply slice_in; auto. lia.
    + apply (Er_up p Hp (0 + 3 * (q - j))); [lia|]. apply (dc_err rnd u Hu Hr); [lra|]. intros i Hi'. apply Er_of. apply HB. rewrite Etot. apply slice_in; auto. lia.
Qed.

(** ** Elevation *)
Lemma elevate_maj (s : spline V) (w : spline R) k : wf s -> wf w -> degrees w = degrees s -> (k < length (degrees s))%nat ->
  (Z.of_nat (nth k (degrees s) 0%nat + 1) < 2 ^ Z.of_nat p)%Z ->
  (Z.of_nat (n_coeffs (upd_list (degrees s) k (S (nth k (degrees s) 0%nat)))) < 2 ^ 31)%Z ->
  exists e e0 ew, OrderElevate (o := ornd) (ov := ovr) s k = Ok e /\ OrderElevate (ov := ov) s k = Ok e0 /\ OrderElevate (V := R) w k = Ok ew /\
    (wf e /\ wf e0 /\ wf ew) /\
    (degrees e = upd_list (degrees s) k (S (nth k (degrees s) 0%nat)) /\ degrees e0 = degrees e /\ degrees ew = degrees e) /\
    (positive w -> positive ew) /\
    forall pr B, hom pr -> bounded pr B s w -> nclose (2 * nth k (degrees s) 0%nat + 3) pr B e e0 ew.
Proof using Hp HR M v0_r.
  intros Hw Hww Dw Hk Hq Hsz. set (q := nth k (degrees s) 0%nat) in *.
  assert (Es : S q = (q + 1)%nat) by lia. rewrite Es in *.
  assert (Z1 : seqb (SOps := ornd) (sofnat (H := ornd) (q + 1)) (s0 (SOps := ornd)) = false).
  { rewrite (sofnat_rnd p rnd Hp HR) by lia. cbn [seqb s0 SOps_rnd]. destruct (Req_EM_T (INR (q + 1)) 0) as [E|]; auto.
    exfalso. assert (0 < INR (q + 1)) by (apply lt_0_INR; lia). lra. }
  assert (Z2 : seqb (sofnat (q + 1)) (s0 : R) = false).
  { rewrite sofnat_INR. cbn [seqb s0 SOps_R]. destruct (Req_EM_T (INR (q + 1)) R0) as [E|]; auto.
    exfalso. assert (0 < INR (q + 1)) by (apply lt_0_INR; lia). change R0 with 0 in E. lra. }
  pose proof (OrderElevate_raw (o := ornd) (ov := ovr) s k Hw Hk Z1 Hsz) as E. fold q in E.
  pose proof (OrderElevate_raw (ov := ov) s k Hw Hk Z2 Hsz) as E1. fold q in E1.
  pose proof (OrderElevate_raw (V := R) w k Hww ltac:(now rewrite Dw)) as E2. rewrite Dw in E2. fold q in E2. specialize (E2 Z2 Hsz).
  set (degs' := upd_list (degrees s) k (q + 1)%nat) in *. set (off := n_coeffs (firstn k (degrees s))) in *.
  assert (Hoff : (0 < off)%nat) by apply n_coeffs_pos.
  set (cnt := n_coeffs (skipn (S k) (degrees s))).
  assert (Etot : n_coeffs (degrees s) = (off * (q + 1) * cnt)%nat).
  { rewrite (n_coeffs_split (degrees s) k), (skipn_cons_nth 0%nat (degrees s) k) by auto.
    rewrite n_coeffs_cons. fold q off cnt. lia. }
  assert (Etot' : n_coeffs degs' = (off * (q + 1 + 1) * cnt)%nat).
  { unfold degs'. rewrite upd_split by auto. rewrite n_coeffs_app, n_coeffs_cons. fold off cnt. lia. }
  assert (Dne : degs' <> []).
  { unfold degs'. destruct Hw as (Hne & _). intros Z. apply (f_equal (@length nat)) in Z. rewrite length_upd in Z. destruct (degrees s); simpl in *; [congruence|lia]. }
  eexists. eexists. eexists. split; [exact E|]. split; [exact E1|]. split; [exact E2|].
  split; [repeat split_and; (apply wf_mk; [exact Dne|unfold relev_points; rewrite map_length, seq_length; auto])|].
  split; [cbn [mk degrees]; auto|]. split.
  - intros HP i Hi. cbn [mk degrees control_points] in *. rewrite Etot' in Hi. destruct (nth_slice off (q + 1) cnt i Hoff Hi) as (a & j & m & Ha & Hj & Hm & ->).
    change 0 with (v0 (V := R)) at 2. replace (q + 1 + 1)%nat with (q + 2)%nat in * by lia. rewrite (nth_relev_points (V := R)) by (auto; rewrite Etot'; apply slice_in || auto).
    apply relev_pos; auto. intros j0 Hj0. apply HP. rewrite Dw, Etot. replace (S q) with (q + 1)%nat by lia. apply slice_in; auto.
  - intros pr B (P1 & P2 & P3 & P4 & P5) HB i Hi. cbn [mk degrees control_points] in *. rewrite Etot' in Hi. destruct (nth_slice off (q + 1) cnt i Hoff Hi) as (a & j & m & Ha & Hj & Hm & ->).
    replace (q + 1 + 1)%nat with (q + 2)%nat in * by lia.
    rewrite <- Etot' in Hi. rewrite <- v0_r at 1. change 0 with (v0 (V := R)) at 1. rewrite (nth_relev_points (o := ornd) (ov := ovr)) by auto. rewrite (nth_relev_points (ov := ov)) by auto. rewrite (nth_relev_points (V := R)) by auto.
    rewrite (pr_relev_r rnd pr P3 P4), (pr_relev pr P1 P2), v0_r, <- relev_scal. apply relev_maj; auto.
    intros j0 Hj0. apply HB. rewrite Dw, Etot. replace (S q) with (q + 1)%nat by lia. apply slice_in; auto.
Qed.
End Gen.
