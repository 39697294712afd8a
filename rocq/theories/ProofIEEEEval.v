(** Evaluation and subdivision in floating-point arithmetic with bounded exponents. *)
From Coq Require Import Arith Lia List ZArith NArith Bool Reals Lra Psatz.
From Verif Require Import Prelude Scalar Spec SpecSpline Sums Coord ModelBasis ModelSpline ModelRational
  ModelRound SpecRound ModelIEEE SpecIEEE ProofIndex ProofBasis ProofEval ProofParam ProofCasteljau ProofRaw ProofRound ProofRoundEval ProofRoundOps ProofIEEE ClaimsU.
Import ListNotations.
Local Open Scope R_scope.

Section IEEE.
Context (F : format) (HF : reasonable F) (rnd : R -> R) (HR : nearest_on_grid F rnd).
Notation p := (prec F).
Notation oi := (SOps_ieee F rnd).
Notation ornd := (SOps_rnd rnd).
Let u := / 2 ^ p.
Let Hu : 0 <= u := unit_pos p.

Lemma deliver_ok x : Rabs (rnd x) <= omega F -> deliver F rnd x = Fin (rnd x).
Proof. intros H. unfold deliver. destruct (Rle_dec _ _); auto. contradiction. Qed.
Lemma rnd_unit x : on_grid F x -> 0 <= x <= 1 -> 0 <= rnd (1 - x) <= 1.
Proof using HF HR. intros G Hx. apply (near1_unit F HF x); auto. apply HR. Qed.
Lemma scaled_bound t a : 0 <= t <= 1 -> Rabs a <= omega F -> Rabs (rnd (t * a)) <= omega F.
Proof using HF HR.
  intros Ht Ha. pose proof (omega_pos F HF). assert (- omega F <= a <= omega F) by (unfold Rabs in Ha; destruct (Rcase_abs a); lra).
  apply Rabs_le. split.
  - rewrite <- (rnd_id F rnd HR (- omega F)) by (apply grid_opp, grid_omega; auto). apply (rnd_mono F rnd HR). nra.
  - rewrite <- (rnd_id F rnd HR (omega F)) by (apply grid_omega; auto). apply (rnd_mono F rnd HR). nra.
Qed.

(** One step. *)
Lemma step_fl x a b : on_grid F x -> 0 <= x <= 1 -> machine F a -> machine F b ->
  sadd (SOps := oi) (smul (SOps := oi) (ssub (SOps := oi) (s1 (SOps := oi)) (Fin x)) (Fin a)) (smul (SOps := oi) (Fin x) (Fin b)) =
    Fin (rnd (rnd (rnd (1 - x) * a) + rnd (x * b))) /\
  machine F (rnd (rnd (rnd (1 - x) * a) + rnd (x * b))).
Proof using HF HR.
  intros Gx Hx (Ga & Ba) (Gb & Bb). pose proof (rnd_unit x Gx Hx) as Ht. pose proof (omega_1 F HF).
  cbn [sadd smul ssub s1 SOps_ieee fl_lift2]. rewrite deliver_ok by (rewrite Rabs_right; lra). cbn [fl_lift2].
  rewrite !deliver_ok by (apply scaled_bound; auto). cbn [fl_lift2].
  pose proof (combine_bound F rnd x a b HF HR Gx Hx Ba Bb) as K. rewrite deliver_ok by auto.
  split; [reflexivity|]. split; [apply HR|exact K].
Qed.

(** The factors of degree elevation. *)
Lemma INR_exact n : (Z.of_nat n < 2 ^ Z.of_nat p)%Z -> rnd (INR n) = INR n /\ Rabs (INR n) <= omega F.
Proof using HF HR.
  intros H. split.
  - apply (rnd_id F rnd HR). exists (Z.of_nat n), 0%Z. split; [lia|]. split; [destruct HF as (? & ? & ?); lia|]. rewrite INR_IZR_INZ. simpl. ring.
  - rewrite Rabs_right by (apply Rle_ge, pos_INR). rewrite INR_IZR_INZ, omega_eq.
    assert (IZR (Z.of_nat n) <= IZR (2 ^ Z.of_nat p - 1)) by (apply IZR_le; lia).
    assert (0 <= IZR (Z.of_nat n)) by (apply IZR_le; lia).
    assert (1 <= powerRZ 2 (emax F)) by (apply (two_le 0); destruct HF as (? & ? & ?); lia). nra.
Qed.
Lemma sofnat_ieee n : (Z.of_nat n < 2 ^ Z.of_nat p)%Z -> sofnat (H := oi) n = Fin (INR n).
Proof using HF HR.
  intros H. destruct (INR_exact n H) as (E & B). unfold sofnat. cbn [sofN SOps_ieee]. rewrite nat_N_Z, <- INR_IZR_INZ.
  unfold deliver. rewrite E. destruct (Rle_dec _ _); [reflexivity|contradiction].
Qed.
Lemma sofnat_grid n : (Z.of_nat n < 2 ^ Z.of_nat p)%Z -> sofnat (H := ornd) n = INR n.
Proof using HF HR.
  intros H. unfold sofnat. cbn [sofN SOps_rnd]. rewrite nat_N_Z, <- INR_IZR_INZ. apply (INR_exact n H).
Qed.
Definition fac (q i : nat) : R := rnd (INR i * rnd (1 / INR (q + 1))).
Lemma large x : powerRZ 2 (- Z.of_nat p) <= x -> Rabs (rnd x - x) <= u * x.
Proof using HF HR.
  intros H. pose proof (two_pos (- Z.of_nat p)). destruct HF as (H1 & H2 & H3).
  rewrite <- (Rabs_right x) at 3 by lra. apply (rnd_error_large F HF rnd HR); [lra|].
  unfold expo'. rewrite Rabs_right by lra. destruct (exponent x ltac:(lra)) as (_ & L).
  destruct (Z_le_gt_dec (- Z.of_nat p) (expo x)) as [|N]; [lia|]. exfalso.
  assert (powerRZ 2 (expo x + 1) <= powerRZ 2 (- Z.of_nat p)) by (apply two_le; lia). lra.
Qed.
Lemma fac_ok q i : (Z.of_nat (q + 1) < 2 ^ Z.of_nat p)%Z -> (0 < i <= q)%nat ->
  smul (SOps := oi) (sofnat (H := oi) i) (sdiv (SOps := oi) (s1 (SOps := oi)) (sofnat (H := oi) (q + 1))) = Fin (fac q i) /\
  smul (SOps := ornd) (sofnat (H := ornd) i) (sdiv (SOps := ornd) (s1 (SOps := ornd)) (sofnat (H := ornd) (q + 1))) = fac q i /\
  on_grid F (fac q i) /\ 0 <= fac q i <= 1 /\ Rabs (fac q i - INR i * (1 / INR (q + 1))) <= ((1 + u) ^ 2 - 1) * (INR i * (1 / INR (q + 1))).
Proof using HF HR.
  intros Hq Hi. rewrite !sofnat_ieee, !sofnat_grid by lia. set (b := INR (q + 1)).
  assert (B1 : 1 <= b) by (apply (le_INR 1); lia). pose proof (omega_1 F HF) as O1.
  assert (BP : b < 2 ^ p). { unfold b. rewrite INR_IZR_INZ, (pow_w F), <- two_IZR. apply IZR_lt. lia. }
  assert (W : powerRZ 2 (- Z.of_nat p) = u).
  { unfold u. rewrite (pow_w F). apply (Rmult_eq_reg_l (powerRZ 2 (Z.of_nat p))); [|apply Rgt_not_eq, two_pos].
    rewrite two_inv, Rinv_r; auto. apply Rgt_not_eq, two_pos. }
  assert (P2 : 0 < 2 ^ p) by (apply pow_lt; lra).
  assert (UB : u <= 1 / b). { unfold u, Rdiv. rewrite Rmult_1_l. apply Rinv_le_contravar; lra. }
  assert (IB : 1 / b <= 1). { apply (Rmult_le_reg_r b); [lra|]. unfold Rdiv. rewrite Rmult_assoc, Rinv_l; lra. }
  assert (U0 : 0 < u) by (apply Rinv_0_lt_compat; auto).
  assert (EB : 1 / b * b = 1) by (field; lra).
  pose proof (large (1 / b) ltac:(lra)) as E1. set (r := rnd (1 / b)) in *.
  assert (R1 : u <= r <= 1).
  { pose proof (rnd_mono F rnd HR u (1 / b) UB) as K1. pose proof (rnd_mono F rnd HR (1 / b) 1 IB) as K2. fold r in K1, K2.
    rewrite (rnd_id F rnd HR u) in K1 by (rewrite <- W; apply grid_w; auto; destruct HF as (? & ? & ?); lia).
    rewrite (rnd_id F rnd HR 1) in K2 by (apply grid_1; auto). lra. }
  assert (I1 : 1 <= INR i) by (apply (le_INR 1); lia).
  assert (I2 : INR i <= b - 1). { unfold b. rewrite plus_INR. assert (INR i <= INR q) by (apply le_INR; lia). simpl. lra. }
  assert (R2 : r <= (1 + u) * (1 / b)) by (unfold Rabs in E1; destruct (Rcase_abs (r - 1 / b)); lra).
  assert (IR : INR i * r <= 1).
  { apply Rle_trans with ((b - 1) * ((1 + u) * (1 / b))); [apply Rmult_le_compat; lra|].
    replace ((b - 1) * ((1 + u) * (1 / b))) with ((1 + u) * (1 - 1 / b)) by (field; lra). nra. }
  assert (UI : u <= INR i * r) by nra.
  pose proof (large (INR i * r) ltac:(lra)) as E2. fold r in E2.
  assert (F0 : 0 <= fac q i <= 1).
  { pose proof (rnd_mono F rnd HR 0 (INR i * r) ltac:(lra)) as K1. pose proof (rnd_mono F rnd HR (INR i * r) 1 IR) as K2.
    rewrite (rnd_0 F rnd HR) in K1. rewrite (rnd_id F rnd HR 1) in K2 by (apply grid_1; auto). unfold fac. fold b r. lra. }
  split; [|split; [reflexivity|split; [apply HR|split; [exact F0|]]]].
  - cbn [smul sdiv s1 SOps_ieee fl_lift2]. destruct (Req_EM_T b 0); [lra|]. rewrite deliver_ok by (fold r; rewrite Rabs_right; lra).
    cbn [fl_lift2]. fold r. rewrite deliver_ok; [reflexivity|]. change (rnd (INR i * r)) with (fac q i). rewrite Rabs_right; lra.
  - unfold fac. fold b r. set (x := INR i * (1 / b)) in *.
    replace (rnd (INR i * r) - x) with ((rnd (INR i * r) - INR i * r) + INR i * (r - 1 / b)) by (unfold x; ring).
    eapply Rle_trans; [apply Rabs_triang|]. rewrite Rabs_mult, (Rabs_right (INR i)) by lra.
    assert (INR i * Rabs (r - 1 / b) <= u * x) by (unfold x; apply Rle_trans with (INR i * (u * (1 / b))); [apply Rmult_le_compat_l; lra|lra]).
    assert (u * (INR i * r) <= u * ((1 + u) * x)) by (apply Rmult_le_compat_l; [lra|]; unfold x; nra). nra.
Qed.

(** Computing with finite numbers stays finite. *)
Section Lift.
Context {V W : Type} {ov : VOps R V} {ow : VOps fl W} (j : V -> W) (mach : V -> Prop).
Context (Hstep : forall x a b, on_grid F x -> 0 <= x <= 1 -> mach a -> mach b ->
  vadd (vscale (ssub (SOps := oi) (s1 (SOps := oi)) (Fin x)) (j a)) (vscale (Fin x) (j b)) =
    j (vadd (vscale (rnd (1 - x)) a) (vscale x b)) /\ mach (vadd (vscale (rnd (1 - x)) a) (vscale x b))).
Lemma dc_lift x f f' r : on_grid F x -> 0 <= x <= 1 -> forall i, (forall k, (i <= k <= i + r)%nat -> f' k = j (f k) /\ mach (f k)) ->
  dc (o := oi) (ov := ow) (Fin x) f' r i = j (dc (o := ornd) (ov := ov) x f r i) /\ mach (dc (o := ornd) (ov := ov) x f r i).
Proof using Hstep.
  intros Gx Hx. induction r; intros i H; [apply H; lia|]. cbn [dc].
  destruct (IHr i ltac:(intros; apply H; lia)) as (E1 & M1). destruct (IHr (S i) ltac:(intros; apply H; lia)) as (E2 & M2).
  rewrite E1, E2. apply Hstep; auto.
Qed.
Lemma dct_lift degs xs : length xs = length degs -> Forall (on_grid F) xs -> in_unit_box xs ->
  forall f f', (forall k, (k < n_coeffs degs)%nat -> f' k = j (f k) /\ mach (f k)) ->
  dct (o := oi) (ov := ow) degs (map Fin xs) f' = j (dct (o := ornd) (ov := ov) degs xs f) /\ mach (dct (o := ornd) (ov := ov) degs xs f).
Proof using Hstep.
  revert xs; induction degs as [|q degs IH]; intros [|x xs] HL HG HX f f' H; try discriminate.
  - apply H. unfold n_coeffs; simpl; lia.
  - cbn [dct map]. inversion HG; subst. inversion HX; subst. apply IH; auto. intros m Hm. apply dc_lift; auto.
    intros i Hi. apply H. rewrite n_coeffs_cons. nia.
Qed.
Lemma relev_lift q f f' i : (Z.of_nat (q + 1) < 2 ^ Z.of_nat p)%Z -> (i <= q + 1)%nat -> (forall k, f' k = j (f k) /\ mach (f k)) ->
  relev (o := oi) (ov := ow) q f' i = j (relev (o := ornd) (ov := ov) q f i) /\ mach (relev (o := ornd) (ov := ov) q f i).
Proof using Hstep HF HR.
  intros Hq Hi H. unfold relev. destruct (Nat.eqb_spec i 0); [apply H|]. destruct (Nat.eqb_spec i (q + 1)); [apply H|].
  destruct (fac_ok q i Hq ltac:(lia)) as (E1 & E2 & G & U & _). cbv zeta. rewrite E1, E2.
  destruct (H i) as (-> & M1). destruct (H (i - 1)%nat) as (-> & M2). apply Hstep; auto.
Qed.
Context (v0_j : v0 (V := W) = j v0).
Context (s : spline V) (s' : spline W).
Context (Hw : wf s) (Hm : Forall mach (control_points s)).
Context (Ed : degrees s' = degrees s) (En : number_of_control_points s' = number_of_control_points s)
  (Ei : index_offsets s' = index_offsets s) (Ec : control_points s' = map j (control_points s)).
Lemma wf_lift : wf s'.
Proof using Hw Ed En Ei Ec.
  destruct Hw as (H1 & H2 & H3 & H4). unfold wf. rewrite Ed, En, Ei, Ec, map_length. auto.
Qed.
Lemma nth_lift i : (i < n_coeffs (degrees s))%nat -> nth i (control_points s') v0 = j (nth i (control_points s) v0) /\ mach (nth i (control_points s) v0).
Proof using Hw Hm Ec En v0_j.
  intros Hi. rewrite Ec, v0_j, map_nth. split; auto. destruct Hw as (_ & _ & _ & L). eapply Forall_forall in Hm; eauto. apply nth_In. lia.
Qed.
Lemma Evaluate_lift xs : length xs = length (degrees s) -> Forall (on_grid F) xs -> in_unit_box xs ->
  exists e, Evaluate (o := ornd) (ov := ov) s xs = Ok e /\ Evaluate (o := oi) (ov := ow) s' (map Fin xs) = Ok (j e) /\ mach e.
Proof using Hstep Hw Hm Ed En Ei Ec v0_j.
  intros HL HG HX. rewrite !Evaluate_dct; auto using wf_lift; [|rewrite map_length, Ed; auto].
  rewrite Ed. eexists. split; [reflexivity|].
  destruct (dct_lift (degrees s) xs HL HG HX (fun i => nth i (control_points s) v0) (fun i => nth i (control_points s') v0)) as (E & M); [apply nth_lift|].
  split; [f_equal; exact E|exact M].
Qed.
Context (m0 : mach v0).
Lemma Elevate_lift k : (k < length (degrees s))%nat -> (Z.of_nat (nth k (degrees s) 0%nat + 1) < 2 ^ Z.of_nat p)%Z ->
  (Z.of_nat (n_coeffs (upd_list (degrees s) k (nth k (degrees s) 0 + 1)%nat)) < 2 ^ 31)%Z ->
  exists c, OrderElevate (o := ornd) (ov := ov) s k = Ok (mk (upd_list (degrees s) k (nth k (degrees s) 0 + 1)%nat) c) /\
    OrderElevate (o := oi) (ov := ow) s' k = Ok (mk (upd_list (degrees s) k (nth k (degrees s) 0 + 1)%nat) (map j c)) /\ Forall mach c /\
    c = relev_points (o := ornd) (ov := ov) (n_coeffs (firstn k (degrees s))) (nth k (degrees s) 0%nat) (n_coeffs (upd_list (degrees s) k (nth k (degrees s) 0 + 1)%nat)) (control_points s).
Proof using Hstep HF HR Hw Hm Ed En Ei Ec v0_j m0.
  intros Hk Hq Hsz. pose proof wf_lift as Hw'. set (q := nth k (degrees s) 0%nat) in *.
  assert (P0 : 0 < INR (q + 1)) by (apply lt_0_INR; lia).
  assert (Z1 : seqb (SOps := ornd) (sofnat (H := ornd) (q + 1)) (s0 (SOps := ornd)) = false).
  { rewrite sofnat_grid by lia. cbn [seqb s0 SOps_rnd]. destruct (Req_EM_T (INR (q + 1)) 0); auto. lra. }
  assert (Z2 : seqb (SOps := oi) (sofnat (H := oi) (q + 1)) (s0 (SOps := oi)) = false).
  { rewrite sofnat_ieee by lia. cbn [seqb s0 SOps_ieee]. destruct (Req_EM_T (INR (q + 1)) 0); auto. lra. }
  pose proof (OrderElevate_raw (o := ornd) (ov := ov) s k Hw Hk Z1 Hsz) as E. fold q in E.
  assert (HN : forall i, nth i (control_points s') v0 = j (nth i (control_points s) v0) /\ mach (nth i (control_points s) v0)).
  { intros i. rewrite Ec, v0_j, map_nth. split; auto. destruct (lt_dec i (length (control_points s))) as [Hi|Hi]; [|rewrite nth_overflow by lia; auto].
    eapply Forall_forall in Hm; eauto. apply nth_In; auto. }
  exists (relev_points (o := ornd) (ov := ov) (n_coeffs (firstn k (degrees s))) q (n_coeffs (upd_list (degrees s) k (q + 1)%nat)) (control_points s)).
  split; [exact E|]. split.
  - rewrite (OrderElevate_raw (o := oi) (ov := ow) s' k Hw'); [|rewrite Ed; auto|rewrite Ed; exact Z2|rewrite Ed; exact Hsz].
    rewrite Ed. fold q. do 2 f_equal. unfold relev_points. rewrite map_map. apply map_ext. intros z. apply relev_lift; auto.
    pose proof (Nat.mod_upper_bound (z / n_coeffs (firstn k (degrees s))) (q + 2)). lia.
  - split; [|reflexivity]. apply Forall_forall. intros z Hz. unfold relev_points in Hz. apply in_map_iff in Hz. destruct Hz as (y & <- & _).
    apply (relev_lift q (fun j0 => nth (y mod n_coeffs (firstn k (degrees s)) + n_coeffs (firstn k (degrees s)) * (j0 + S q * (y / n_coeffs (firstn k (degrees s)) / (q + 2)))) (control_points s) v0)
      (fun j0 => nth (y mod n_coeffs (firstn k (degrees s)) + n_coeffs (firstn k (degrees s)) * (j0 + S q * (y / n_coeffs (firstn k (degrees s)) / (q + 2)))) (control_points s') v0)); auto.
    pose proof (Nat.mod_upper_bound (y / n_coeffs (firstn k (degrees s))) (q + 2)). lia.
Qed.
Lemma Split_lift x k : (k < length (degrees s))%nat -> on_grid F x -> 0 < x < 1 ->
  exists c1 c2, SplitAtPosition (o := ornd) (ov := ov) s x k = Ok [with_cps s c1; with_cps s c2] /\
    SplitAtPosition (o := oi) (ov := ow) s' (Fin x) k = Ok [with_cps s' (map j c1); with_cps s' (map j c2)] /\
    Forall mach c1 /\ Forall mach c2 /\
    length c1 = length (control_points s) /\ length c2 = length (control_points s) /\
    forall i, (i < n_coeffs (degrees s))%nat -> exists a m jj, 
      (a < n_coeffs (firstn k (degrees s)))%nat /\ (jj <= nth k (degrees s) 0%nat)%nat /\ (m < n_coeffs (skipn (S k) (degrees s)))%nat /\
      i = (a + n_coeffs (firstn k (degrees s)) * (jj + (nth k (degrees s) 0%nat + 1) * m))%nat /\
      (forall q, (q <= nth k (degrees s) 0%nat)%nat -> (a + n_coeffs (firstn k (degrees s)) * (q + (nth k (degrees s) 0%nat + 1) * m) < n_coeffs (degrees s))%nat) /\
      let f := fun q => nth (a + n_coeffs (firstn k (degrees s)) * (q + (nth k (degrees s) 0%nat + 1) * m)) (control_points s) v0 in
      nth i c1 v0 = dc (o := ornd) (ov := ov) x f jj 0 /\ nth i c2 v0 = dc (o := ornd) (ov := ov) x f (nth k (degrees s) 0%nat - jj) jj.
Proof using Hstep Hw Hm Ed En Ei Ec v0_j.
  intros Hk Gx Hx. pose proof wf_lift as Hw'.
  assert (H0r : slt (H := ornd) (s0 (SOps := ornd)) x) by (unfold slt; cbn [sltb s0 SOps_rnd]; destruct (Rlt_dec 0 x) as [|N]; auto; lra).
  assert (H1r : slt (H := ornd) x (s1 (SOps := ornd))) by (unfold slt; cbn [sltb s1 SOps_rnd]; destruct (Rlt_dec x 1) as [|N]; auto; lra).
  assert (H0i : slt (H := oi) (s0 (SOps := oi)) (Fin x)) by (unfold slt; cbn [sltb s0 SOps_ieee]; destruct (Rlt_dec 0 x) as [|N]; auto; lra).
  assert (H1i : slt (H := oi) (Fin x) (s1 (SOps := oi))) by (unfold slt; cbn [sltb s1 SOps_ieee]; destruct (Rlt_dec x 1) as [|N]; auto; lra).
  destruct (SplitAtPosition_raw (o := ornd) (ov := ov) s x k Hw Hk H0r H1r) as (c1 & c2 & E & L1 & L2 & N).
  destruct (SplitAtPosition_raw (o := oi) (ov := ow) s' (Fin x) k Hw' ltac:(rewrite Ed; auto) H0i H1i) as (d1 & d2 & E' & L1' & L2' & N').
  rewrite Ed in N'. set (q := nth k (degrees s) 0%nat) in *. set (off := n_coeffs (firstn k (degrees s))) in *.
  set (cnt := n_coeffs (skipn (S k) (degrees s))) in *.
  assert (Hoff : (0 < off)%nat) by apply n_coeffs_pos.
  assert (Etot : n_coeffs (degrees s) = (off * (q + 1) * cnt)%nat).
  { rewrite (n_coeffs_split (degrees s) k), (skipn_cons_nth 0%nat (degrees s) k) by auto.
    rewrite n_coeffs_cons. fold q off cnt. lia. }
  assert (Lc : length (control_points s) = n_coeffs (degrees s)) by apply Hw.
  assert (Lc' : length (control_points s') = n_coeffs (degrees s)) by (rewrite Ec, map_length; auto).
  assert (HC : forall i, (i < n_coeffs (degrees s))%nat ->
    exists a jj m, (a < off)%nat /\ (jj <= q)%nat /\ (m < cnt)%nat /\ i = (a + off * (jj + (q + 1) * m))%nat).
  { intros i Hi. exists (i mod off)%nat, (i / off mod (q + 1))%nat, (i / off / (q + 1))%nat.
    split; [apply Nat.mod_upper_bound; lia|]. split; [pose proof (Nat.mod_upper_bound (i / off) (q + 1)); lia|]. split.
    - apply Nat.div_lt_upper_bound; [lia|]. apply Nat.div_lt_upper_bound; [lia|]. rewrite Etot in Hi. nia.
    - rewrite (Nat.div_mod i off) at 1 by lia. rewrite (Nat.div_mod (i / off) (q + 1)) at 1 by lia. lia. }
  assert (HB : forall a jj m, (a < off)%nat -> (jj <= q)%nat -> (m < cnt)%nat -> (a + off * (jj + (q + 1) * m) < n_coeffs (degrees s))%nat).
  { intros a jj m Ha Hj Hm'. rewrite Etot.
    assert (off * ((q + 1) * S m) <= off * ((q + 1) * cnt))%nat by (apply Nat.mul_le_mono_l, Nat.mul_le_mono_l; lia). nia. }
  assert (Key : forall i, (i < n_coeffs (degrees s))%nat ->
    (nth i d1 v0 = j (nth i c1 v0) /\ mach (nth i c1 v0)) /\ (nth i d2 v0 = j (nth i c2 v0) /\ mach (nth i c2 v0))).
  { intros i Hi. destruct (HC i Hi) as (a & jj & m & Ha & Hj & Hm' & ->).
    destruct (N a jj m Ha Hj Hm') as (-> & ->). destruct (N' a jj m Ha Hj Hm') as (-> & ->).
    split; apply dc_lift; auto; try lra; intros i Hi'; apply nth_lift, HB; auto; lia. }
  assert (EQ : forall c d, length c = length (control_points s) -> length d = length (control_points s') ->
    (forall i, (i < n_coeffs (degrees s))%nat -> nth i d v0 = j (nth i c v0) /\ mach (nth i c v0)) -> d = map j c /\ Forall mach c).
  { intros c d Hc Hd H. split.
    - apply (nth_ext _ _ v0 v0); [rewrite map_length; congruence|]. intros i Hi. rewrite v0_j at 2. rewrite map_nth. apply H. lia.
    - apply Forall_forall. intros z Hz. apply (In_nth _ _ v0) in Hz. destruct Hz as (i & Hi & <-). apply H. lia. }
  destruct (EQ c1 d1 L1 L1' (fun i Hi => proj1 (Key i Hi))) as (Q1 & M1). destruct (EQ c2 d2 L2 L2' (fun i Hi => proj2 (Key i Hi))) as (Q2 & M2).
  exists c1, c2. split; [exact E|]. split; [rewrite E', Q1, Q2; reflexivity|]. do 4 (split; [assumption|]).
  intros i Hi. destruct (HC i Hi) as (a & jj & m & Ha & Hj & Hm' & ->). exists a, m, jj. do 3 (split; [assumption|]). split; [reflexivity|].
  split; [intros; apply HB; auto|]. cbv zeta. apply N; auto.
Qed.
End Lift.

(** ** Error of the recurrence *)
(** [y] approximates [x] after [n] rounds; [A] bounds [x]. *)
Definition Eb (n : nat) (y x A : R) : Prop := Rabs (y - x) <= ((1 + u) ^ (3 * n) - 1) * A + underflow F n /\ Rabs x <= A.
Lemma tiny_pos : 0 < tiny F.
Proof. apply two_pos. Qed.
Lemma underflow_pos n : 0 <= underflow F n.
Proof using. unfold underflow. pose proof tiny_pos. pose proof (u_pow u Hu (3 * n)). fold u. apply Rmult_le_pos; [|lra].
  apply Rmult_le_pos; [apply pos_INR|lra]. Qed.
Lemma step_err n x a b a0 b0 A B : on_grid F x -> 0 <= x <= 1 -> Eb n a a0 A -> Eb n b b0 B ->
  Eb (S n) (rnd (rnd (rnd (1 - x) * a) + rnd (x * b))) ((1 - x) * a0 + x * b0) ((1 - x) * A + x * B).
Proof using HF HR.
  intros Gx Hx (H1 & H2) (H3 & H4). set (g := (1 + u) ^ (3 * n)) in *. set (h := underflow F n) in *.
  assert (Hg : 1 <= g) by apply (u_pow u Hu). assert (Hh : 0 <= h) by apply underflow_pos. pose proof tiny_pos as T.
  assert (PA : 0 <= A) by (pose proof (Rabs_pos a0); lra). assert (PB : 0 <= B) by (pose proof (Rabs_pos b0); lra).
  assert (BA : Rabs a <= g * A + h) by (replace a with ((a - a0) + a0) by ring; eapply Rle_trans; [apply Rabs_triang|]; lra).
  assert (BB : Rabs b <= g * B + h) by (replace b with ((b - b0) + b0) by ring; eapply Rle_trans; [apply Rabs_triang|]; lra).
  set (t := rnd (1 - x)). assert (Et : Rabs (t - (1 - x)) <= u * (1 - x)).
  { pose proof (rnd_error_sum F HF rnd HR 1 (- x) (grid_1 F HF) (grid_opp F x Gx)) as K. fold (1 - x) in K. fold u t in K.
    rewrite (Rabs_right (1 - x)) in K by lra. exact K. }
  assert (Bt : Rabs t <= (1 - x) * (1 + u)).
  { replace t with ((t - (1 - x)) + (1 - x)) by ring. eapply Rle_trans; [apply Rabs_triang|]. rewrite (Rabs_right (1 - x)) by lra. lra. }
  (* the products *)
  assert (P1 : Rabs (t * a - (1 - x) * a0) <= (1 - x) * (((1 + u) * g - 1) * A + (1 + u) * h)).
  { replace (t * a - (1 - x) * a0) with ((t - (1 - x)) * a + (1 - x) * (a - a0)) by ring. eapply Rle_trans; [apply Rabs_triang|]. rewrite !Rabs_mult.
    rewrite (Rabs_right (1 - x)) by lra.
    apply Rle_trans with (u * (1 - x) * (g * A + h) + (1 - x) * ((g - 1) * A + h)); [|right; ring].
    apply Rplus_le_compat; [apply Rmult_le_compat; auto; apply Rabs_pos|apply Rmult_le_compat_l; lra]. }
  assert (Q1 : Rabs (t * a) <= (1 - x) * (1 + u) * (g * A + h)).
  { rewrite Rabs_mult. apply Rmult_le_compat; auto; apply Rabs_pos. }
  assert (P2 : Rabs (x * b - x * b0) <= x * ((g - 1) * B + h)).
  { replace (x * b - x * b0) with (x * (b - b0)) by ring. rewrite Rabs_mult, (Rabs_right x) by lra. apply Rmult_le_compat_l; lra. }
  assert (Q2 : Rabs (x * b) <= x * (g * B + h)).
  { rewrite Rabs_mult, (Rabs_right x) by lra. apply Rmult_le_compat_l; lra. }
  pose proof (rnd_error F HF rnd HR (t * a)) as E1. pose proof (rnd_error F HF rnd HR (x * b)) as E2. fold u in E1, E2.
  set (ra := rnd (t * a)) in *. set (rb := rnd (x * b)) in *.
  assert (R1 : Rabs (ra - (1 - x) * a0) <= (1 - x) * (((1 + u) ^ 2 * g - 1) * A + (1 + u) ^ 2 * h) + tiny F / 2).
  { replace (ra - (1 - x) * a0) with ((ra - t * a) + (t * a - (1 - x) * a0)) by ring. eapply Rle_trans; [apply Rabs_triang|].
    assert (u * Rabs (t * a) <= u * ((1 - x) * (1 + u) * (g * A + h))) by (apply Rmult_le_compat_l; auto). nra. }
  assert (R2 : Rabs (rb - x * b0) <= x * (((1 + u) ^ 2 * g - 1) * B + (1 + u) ^ 2 * h) + tiny F / 2).
  { replace (rb - x * b0) with ((rb - x * b) + (x * b - x * b0)) by ring. eapply Rle_trans; [apply Rabs_triang|].
    assert (u * Rabs (x * b) <= u * (x * (g * B + h))) by (apply Rmult_le_compat_l; auto).
    apply Rle_trans with (x * (((1 + u) * g - 1) * B + (1 + u) * h) + tiny F / 2); [lra|].
    apply Rplus_le_compat_r. apply Rmult_le_compat_l; [lra|].
    assert (0 <= u * (1 + u) * (g * B + h)) by (repeat apply Rmult_le_pos; nra). nra. }
  assert (Gs : Rabs (rnd (ra + rb) - (ra + rb)) <= u * Rabs (ra + rb)).
  { apply (rnd_error_sum F HF rnd HR); apply HR. }
  set (X := (1 - x) * a0 + x * b0). set (Z := (1 - x) * A + x * B).
  assert (XZ : Rabs X <= Z).
  { unfold X, Z. eapply Rle_trans; [apply Rabs_triang|]. rewrite !Rabs_mult, (Rabs_right (1 - x)), (Rabs_right x) by lra.
    apply Rplus_le_compat; apply Rmult_le_compat_l; lra. }
  assert (R3 : Rabs (ra + rb - X) <= ((1 + u) ^ 2 * g - 1) * Z + (1 + u) ^ 2 * h + tiny F).
  { unfold X. replace (ra + rb - ((1 - x) * a0 + x * b0)) with ((ra - (1 - x) * a0) + (rb - x * b0)) by ring.
    eapply Rle_trans; [apply Rabs_triang|]. unfold Z. lra. }
  assert (BS : Rabs (ra + rb) <= (1 + u) ^ 2 * g * Z + (1 + u) ^ 2 * h + tiny F).
  { replace (ra + rb) with ((ra + rb - X) + X) by ring. eapply Rle_trans; [apply Rabs_triang|]. lra. }
  split; [|exact XZ]. replace (rnd (ra + rb) - X) with ((rnd (ra + rb) - (ra + rb)) + (ra + rb - X)) by ring. eapply Rle_trans; [apply Rabs_triang|].
  assert (u * Rabs (ra + rb) <= u * ((1 + u) ^ 2 * g * Z + (1 + u) ^ 2 * h + tiny F)) by (apply Rmult_le_compat_l; auto).
  apply Rle_trans with (((1 + u) ^ 3 * g - 1) * Z + ((1 + u) ^ 3 * h + (1 + u) * tiny F)); [nra|].
  replace (3 * S n)%nat with (3 + 3 * n)%nat by lia. rewrite pow_add. fold g. apply Rplus_le_compat_l.
  unfold underflow. fold u. replace (3 * S n)%nat with (3 + 3 * n)%nat by lia. rewrite pow_add, S_INR. fold g. unfold h, underflow. fold u g.
  assert ((1 + u) * tiny F <= (1 + u) ^ 3 * g * tiny F); [|nra].
  apply Rmult_le_compat_r; [lra|]. assert (1 + u <= (1 + u) ^ 3) by (simpl; nra). assert (0 <= (1 + u) ^ 3) by (apply pow_le; lra). nra.
Qed.
Lemma dc_eb x f f' A r : on_grid F x -> 0 <= x <= 1 -> forall n i, (forall k, (i <= k <= i + r)%nat -> Eb n (f' k) (f k) (A k)) ->
  Eb (n + r) (dc (o := ornd) (ov := VOps_scalar R (o := ornd)) x f' r i) (dc x f r i) (dc x A r i).
Proof using HF HR.
  intros Gx Hx n. induction r; intros i H; [rewrite Nat.add_0_r; apply H; lia|].
  cbn [dc vadd vscale VOps_scalar sadd smul ssub s1 SOps_rnd SOps_R]. rewrite Nat.add_succ_r.
  apply step_err; auto; apply IHr; intros; apply H; lia.
Qed.
Lemma dct_eb degs xs : length xs = length degs -> Forall (on_grid F) xs -> in_unit_box xs -> forall f f' A n,
  (forall k, (k < n_coeffs degs)%nat -> Eb n (f' k) (f k) (A k)) ->
  Eb (n + list_sum degs) (dct (o := ornd) (ov := VOps_scalar R (o := ornd)) degs xs f') (dct degs xs f) (dct degs xs A).
Proof using HF HR.
  revert xs; induction degs as [|q degs IH]; intros [|x xs] HL HG HX f f' A n H; try discriminate.
  - simpl. rewrite Nat.add_0_r. apply H. unfold n_coeffs; simpl; lia.
  - cbn [dct]. inversion HG; subst. inversion HX; subst. replace (n + list_sum (q :: degs))%nat with (n + q + list_sum degs)%nat by (simpl; lia).
    apply IH; auto. intros m Hm. apply dc_eb; auto. intros i Hi. apply H. rewrite n_coeffs_cons. nia.
Qed.
Lemma Eb_exact x : Eb 0 x x (Rabs x).
Proof using. split; [|lra]. unfold underflow. simpl. rewrite Rminus_diag_eq, Rabs_R0 by auto. lra. Qed.
(** One line of elevated coefficients. *)
Lemma relev_eb q f M i : (Z.of_nat (q + 1) < 2 ^ Z.of_nat p)%Z -> (i <= q + 1)%nat -> (forall j, (j <= q)%nat -> Rabs (f j) <= M) ->
  Rabs (relev (o := ornd) (ov := VOps_scalar R (o := ornd)) q f i - relev (V := R) q f i) <= (gamma p 3 + 2 * gamma p 2) * M + underflow F 1.
Proof using HF HR.
  intros Hq Hi HM. assert (M0 : 0 <= M) by (eapply Rle_trans; [apply Rabs_pos|apply (HM 0%nat); lia]).
  pose proof (underflow_pos 1) as U1. pose proof (u_pow u Hu 3) as G3. pose proof (u_pow u Hu 2) as G2. unfold gamma. fold u.
  assert (Z : forall x : R, Rabs (x - x) <= ((1 + u) ^ 3 - 1 + 2 * ((1 + u) ^ 2 - 1)) * M + underflow F 1).
  { intros x. rewrite Rminus_diag_eq, Rabs_R0 by auto. assert (0 <= ((1 + u) ^ 3 - 1 + 2 * ((1 + u) ^ 2 - 1)) * M) by (apply Rmult_le_pos; lra). lra. }
  unfold relev. destruct (Nat.eqb_spec i 0); [apply Z|]. destruct (Nat.eqb_spec i (q + 1)); [apply Z|].
  destruct (fac_ok q i Hq ltac:(lia)) as (_ & E2 & G & U & E3). cbv zeta. rewrite E2.
  rewrite !ProofRoundOps.sofnat_INR. cbn [smul sadd sdiv ssub s1 SOps_R SOps_rnd vadd vscale VOps_scalar]. change R1 with 1.
  set (fe := INR i * (1 / INR (q + 1))) in *. set (fr := fac q i) in *.
  assert (Hi' : (i <= q)%nat) by lia. pose proof (HM i Hi') as Ma. pose proof (HM (i - 1)%nat ltac:(lia)) as Mb.
  assert (F1 : fe <= 1).
  { unfold fe. assert (0 < INR (q + 1)) by (apply lt_0_INR; lia). assert (INR i <= INR (q + 1)) by (apply le_INR; lia).
    apply (Rmult_le_reg_r (INR (q + 1))); auto. unfold Rdiv. rewrite Rmult_1_l, Rmult_assoc, Rinv_l by lra. lra. }
  destruct (step_err 0 fr (f i) (f (i - 1)%nat) (f i) (f (i - 1)%nat) M M G U) as (K & _).
  { split; auto. destruct (Eb_exact (f i)) as (K & _). simpl in *. lra. }
  { split; auto. destruct (Eb_exact (f (i - 1)%nat)) as (K & _). simpl in *. lra. }
  replace ((1 - fr) * M + fr * M) with M in K by ring. change (3 * 1)%nat with 3%nat in K.
  set (y := rnd (rnd (rnd (1 - fr) * f i) + rnd (fr * f (i - 1)%nat))) in *.
  replace (y - ((1 - fe) * f i + fe * f (i - 1)%nat)) with ((y - ((1 - fr) * f i + fr * f (i - 1)%nat)) + (fr - fe) * (f (i - 1)%nat - f i)) by ring.
  eapply Rle_trans; [apply Rabs_triang|]. rewrite Rabs_mult.
  assert (D : Rabs (f (i - 1)%nat - f i) <= 2 * M).
  { unfold Rminus. eapply Rle_trans; [apply Rabs_triang|]. rewrite Rabs_Ropp. lra. }
  assert (Rabs (fr - fe) * Rabs (f (i - 1)%nat - f i) <= ((1 + u) ^ 2 - 1) * (2 * M)).
  { apply Rmult_le_compat; auto; try apply Rabs_pos. eapply Rle_trans; [exact E3|]. nra. }
  lra.
Qed.
End IEEE.

(** Points coordinate by coordinate. *)
Lemma step_point F rnd d : reasonable F -> nearest_on_grid F rnd ->
  forall x (a b : point R d), on_grid F x -> 0 <= x <= 1 -> machine_point F a -> machine_point F b ->
  vadd (VOps := VOps_point fl d (o := SOps_ieee F rnd)) (vscale (VOps := VOps_point fl d (o := SOps_ieee F rnd)) (ssub (SOps := SOps_ieee F rnd) (s1 (SOps := SOps_ieee F rnd)) (Fin x)) (fin_point d a))
    (vscale (VOps := VOps_point fl d (o := SOps_ieee F rnd)) (Fin x) (fin_point d b)) =
  fin_point d (vadd (VOps := Vr rnd d) (vscale (VOps := Vr rnd d) (rnd (1 - x)) a) (vscale (VOps := Vr rnd d) x b)) /\
  machine_point F (vadd (VOps := Vr rnd d) (vscale (VOps := Vr rnd d) (rnd (1 - x)) a) (vscale (VOps := Vr rnd d) x b)).
Proof.
  intros HF HR x. induction d as [|d IH]; intros a b Gx Hx Ha Hb; [split; [reflexivity|intros k Hk; lia]|].
  destruct a as (a & a'), b as (b & b').
  assert (Ma : machine F a) by (apply (Ha 0%nat); lia). assert (Mb : machine F b) by (apply (Hb 0%nat); lia).
  destruct (IH a' b' Gx Hx) as (E & M); [intros k Hk; apply (Ha (S k)); lia|intros k Hk; apply (Hb (S k)); lia|].
  destruct (step_fl F HF rnd HR x a b Gx Hx Ma Mb) as (E1 & M1).
  assert (C : forall z y, smul (SOps := SOps_ieee F rnd) z y = smul (SOps := SOps_ieee F rnd) y z).
  { intros [z|] [y|]; cbn [smul SOps_ieee fl_lift2]; auto. now rewrite Rmult_comm. }
  cbn [vadd vscale VOps_point pmap pmap2 fst snd fin_point] in *. split.
  - f_equal; [|exact E]. rewrite (C (Fin a)), (C (Fin b)), E1. cbn [sadd smul SOps_rnd]. now rewrite (Rmult_comm a), (Rmult_comm b).
  - intros [|k] Hk.
    + change (machine F (rnd (rnd (a * rnd (1 - x)) + rnd (b * x)))). now rewrite (Rmult_comm a), (Rmult_comm b).
    + apply M. lia.
Qed.
Lemma fin_point_0 F rnd d : v0 (VOps := VOps_point fl d (o := SOps_ieee F rnd)) = fin_point d (v0 (VOps := Vr rnd d)).
Proof. cbn [v0 VOps_point s0 SOps_ieee SOps_rnd]. induction d; simpl; f_equal; auto. Qed.
