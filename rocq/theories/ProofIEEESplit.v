(** Several subdivisions in one direction with bounded exponents. *)
From Coq Require Import Arith Lia List ZArith NArith Bool Reals Lra Psatz.
From Verif Require Import Prelude Scalar Spec SpecSpline Sums Order Coord ModelBasis ModelSpline ModelRational
  ModelRound SpecRound ModelIEEE SpecIEEE ProofIndex ProofBasis ProofEval ProofArith ProofSplit ProofParam ProofCasteljau ProofRaw ProofRound ProofRoundEval ProofRoundOps
  ProofIEEE ProofIEEEEval ClaimsU ClaimsD ClaimsRoundOps ClaimsIEEE ProofRoundRat SpecRoundSplit ProofRoundSplit SpecIEEESplit.
Import ListNotations.
Local Open Scope R_scope.

(** ** Relative positions *)
Section Pos.
Context (F : format) (HF : reasonable F) (rnd : R -> R) (HR : nearest_on_grid F rnd).
Notation p := (prec F).
Notation oi := (SOps_ieee F rnd).
Let u := / 2 ^ p.

Lemma grid_sub_err x y : on_grid F x -> on_grid F y -> y <= x -> (1 - u) * (x - y) <= rnd (x - y) <= (1 + u) * (x - y).
Proof using HF HR.
  intros Gx Gy H. pose proof (rnd_error_sum F HF rnd HR x (- y) Gx (grid_opp F y Gy)) as E. fold u in E.
  change (x + - y) with (x - y) in E. rewrite (Rabs_right (x - y)) in E by lra.
  unfold Rabs in E. destruct (Rcase_abs (rnd (x - y) - (x - y))); lra.
Qed.
Lemma tiny_small : tiny F <= u ^ 2.
Proof using HF.
  unfold tiny, u. destruct HF as (_ & H & _). rewrite pow_inv, <- pow_mult.
  replace (/ 2 ^ (p * 2)) with (powerRZ 2 (- Z.of_nat (p * 2))) by (rewrite powerRZ_neg', <- pow_powerRZ; reflexivity).
  apply two_le. lia.
Qed.
Lemma unit_le1 : u <= / 2.
Proof using HF.
  unfold u. destruct HF as (H & _). apply Rinv_le_contravar; [lra|]. destruct p; [lia|]. cbn [pow]. pose proof (pow_R1_Rle 2 n ltac:(lra)). lra.
Qed.

Lemma rel_grid t t' : on_grid F t -> on_grid F t' -> 0 <= t -> t < t' -> t' <= 1 - 3 * u ->
  let z := rnd (rnd (t' - t) / rnd (1 - t)) in
  divS (H := oi) (ssub (SOps := oi) (Fin t') (Fin t)) (ssub (SOps := oi) (s1 (SOps := oi)) (Fin t)) = Ok (Fin z) /\
  0 < z < 1 /\ Rabs (z - (t' - t) / (1 - t)) <= gamma p 4 * ((t' - t) / (1 - t)) + tiny F.
Proof using HF HR.
  intros Gt Gt' Ht Hlt H1 z. assert (Up : 0 < u) by (apply Rinv_0_lt_compat, pow_lt; lra).
  pose proof (omega_1 F HF) as O1. pose proof (tiny_small) as TS. pose proof (tiny_pos F) as TP. pose proof unit_le1 as UH.
  pose proof (grid_sub_err t' t Gt' Gt ltac:(lra)) as A. pose proof (grid_sub_err 1 t (grid_1 F HF) Gt ltac:(lra)) as B.
  assert (B1 : rnd (1 - t) <= 1) by (rewrite <- (rnd_id F rnd HR 1 (grid_1 F HF)) at 2; apply (rnd_mono F rnd HR); lra).
  assert (A1 : rnd (t' - t) <= 1) by (rewrite <- (rnd_id F rnd HR 1 (grid_1 F HF)); apply (rnd_mono F rnd HR); lra).
  assert (Ga : on_grid F (rnd (t' - t))) by apply HR.
  unfold z. set (a := rnd (t' - t)) in *. set (b := rnd (1 - t)) in *.
  assert (U3 : 3 * u < 1) by lra.
  assert (Bp : 0 < b) by nra. assert (Ap : 0 < a) by nra.
  set (r := (t' - t) / (1 - t)).
  assert (Er : t' - t = r * (1 - t)) by (unfold r; field; lra).
  assert (Rp : 0 < r) by (apply Rdiv_lt_0_compat; lra).
  assert (Rl : r <= 1 - 3 * u).
  { apply Rmult_le_reg_r with (1 - t); [lra|]. rewrite <- Er. nra. }
  set (q := a / b). assert (Eq : a = q * b) by (unfold q; field; lra).
  assert (Qp : 0 < q) by (apply Rdiv_lt_0_compat; lra).
  assert (Qa : a <= q) by nra.
  assert (Q1 : q * (1 - u) <= (1 + u) * r).
  { apply Rmult_le_reg_r with (1 - t); [lra|]. rewrite Er in A. nra. }
  assert (Q2 : (1 - u) * r <= q * (1 + u)).
  { apply Rmult_le_reg_r with (1 - t); [lra|]. rewrite Er in A. nra. }
  assert (Z0 : 0 < rnd q).
  { apply Rlt_le_trans with a; auto. rewrite <- (rnd_id F rnd HR a Ga). apply (rnd_mono F rnd HR); auto. }
  pose proof (rnd_error F HF rnd HR q) as Q. fold u in Q. rewrite (Rabs_right q) in Q by lra.
  assert (Qb : (1 - u) * q - tiny F / 2 <= rnd q <= (1 + u) * q + tiny F / 2) by (unfold Rabs in Q; destruct (Rcase_abs (rnd q - q)); lra).
  set (y := rnd q) in *. set (T := tiny F) in *.
  assert (Z1 : y * (1 - u) <= (1 + u) ^ 2 * r + T / 2) by nra.
  assert (Z2 : (1 - u) ^ 2 * r <= (y + T / 2) * (1 + u)) by nra.
  assert (Y1 : y < 1).
  { apply Rmult_lt_reg_r with (1 - u); [lra|]. eapply Rle_lt_trans; [exact Z1|].
    apply Rle_lt_trans with ((1 + u) ^ 2 * (1 - 3 * u) + T / 2); [apply Rplus_le_compat_r, Rmult_le_compat_l; nra|]. nra. }
  split.
  - unfold divS. cbn [ssub s1 s0 seqb sdiv SOps_ieee fl_lift2].
    rewrite !(deliver_ok F rnd) by (fold a b; rewrite Rabs_right by lra; lra). fold a b. cbn [seqb sdiv SOps_ieee fl_lift2].
    destruct (Req_EM_T b 0) as [E|_]; [lra|]. rewrite (deliver_ok F rnd) by (fold q y; rewrite Rabs_right by lra; lra). reflexivity.
  - split; [auto|]. unfold gamma. fold u. assert (G : 4 * u <= (1 + u) ^ 4 - 1) by nra. apply Rabs_le. split.
    + assert (y + T / 2 >= (1 - 4 * u) * r); [|assert (4 * u * r <= ((1 + u) ^ 4 - 1) * r) by (apply Rmult_le_compat_r; lra); lra]. apply Rle_ge. apply Rmult_le_reg_r with (1 + u); [lra|]. eapply Rle_trans; [|exact Z2].
      replace ((1 - 4 * u) * r * (1 + u)) with ((1 - 4 * u) * (1 + u) * r) by ring. apply Rmult_le_compat_r; [lra|]. assert (0 <= u * u) by (apply Rmult_le_pos; lra). lra.
    + assert (y - T <= (1 + u) ^ 4 * r); [|lra]. apply Rmult_le_reg_r with (1 - u); [lra|].
      apply Rle_trans with ((1 + u) ^ 2 * r); [assert (T * u <= T * / 2) by (apply Rmult_le_compat_l; lra); lra|].
      assert (U2 : u * u <= / 2 * / 2) by (apply Rmult_le_compat; lra).
      assert (S1 : 1 <= (1 + u) ^ 2 * (1 - u)).
      { replace ((1 + u) ^ 2 * (1 - u)) with (1 + u * (1 - u - u * u)) by ring. assert (0 <= u * (1 - u - u * u)) by (apply Rmult_le_pos; lra). lra. }
      replace ((1 + u) ^ 4 * r * (1 - u)) with ((1 + u) ^ 2 * r * ((1 + u) ^ 2 * (1 - u))) by ring.
      assert (S2 : 0 <= (1 + u) ^ 2 * r) by (apply Rmult_le_pos; [apply pow2_ge_0|lra]).
      rewrite <- (Rmult_1_r ((1 + u) ^ 2 * r)) at 1. apply Rmult_le_compat_l; auto.
Qed.

Context (planes : list R) (HP : machine_planes F planes).
Notation tau := (cut_at rnd planes).
Notation rho := (rel_at rnd planes).
Let n := length planes.

Lemma plane_grid i : (i < n)%nat -> on_grid F (nth i planes 0).
Proof using HP. intros Hi. destruct HP as (G & _). rewrite Forall_forall in G. apply G, nth_In, Hi. Qed.
Lemma rho_grid i : (i < n)%nat -> 0 < rho i < 1 /\ on_grid F (rho i).
Proof using HF HR HP.
  intros Hi. assert (Up : 0 < u) by (apply Rinv_0_lt_compat, pow_lt; lra). destruct HP as (_ & I). destruct i as [|i].
  - cbn [rel_at]. destruct (I 0%nat Hi) as (A & _). fold u in A. split; [lra|apply plane_grid; auto].
  - cbn [rel_at]. split; [|apply HR]. destruct (I i ltac:(unfold n in *; lia)) as (A & A'). destruct (I (S i) Hi) as (B & _).
    fold u in A, B. specialize (A' Hi). apply rel_grid; try (apply plane_grid; unfold n in *; lia); lra.
Qed.
Lemma rho_div i : (S i < n)%nat ->
  divS (H := oi) (ssub (SOps := oi) (Fin (nth (S i) planes 0)) (Fin (nth i planes 0))) (ssub (SOps := oi) (s1 (SOps := oi)) (Fin (nth i planes 0))) = Ok (Fin (rho (S i))).
Proof using HF HR HP.
  intros Hi. destruct HP as (_ & I). destruct (I i ltac:(unfold n in *; lia)) as (A & A'). destruct (I (S i) Hi) as (B & _).
  fold u in A, B. specialize (A' Hi). apply rel_grid; try (apply plane_grid; unfold n in *; lia); lra.
Qed.
Lemma tau_grid i : (i < n)%nat -> Rabs (tau i - nth i planes 0) <= gamma p 4 * (nth i planes 0 - nth 0 planes 0) + INR i * tiny F.
Proof using HF HR HP.
  assert (Up : 0 < u) by (apply Rinv_0_lt_compat, pow_lt; lra). pose proof (tiny_pos F) as TP.
  induction i; intros Hi.
  - cbn [cut_at rel_at INR]. rewrite Rminus_eq_0, Rabs_R0. lra.
  - specialize (IHi ltac:(lia)). pose proof (rho_grid (S i) Hi) as (H1 & _). cbn [cut_at]. cbn [rel_at] in *. rewrite S_INR.
    pose proof HP as (_ & I). destruct (I i ltac:(unfold n in *; lia)) as (A & A'). destruct (I (S i) Hi) as (B & _). specialize (A' Hi). fold u in A, B.
    destruct (rel_grid (nth i planes 0) (nth (S i) planes 0)) as (_ & _ & H2); try (apply plane_grid; unfold n in *; lia); try lra.
    set (t := nth i planes 0) in *. set (t' := nth (S i) planes 0) in *. set (z := rnd (rnd (t' - t) / rnd (1 - t))) in *.
    replace (tau i + (1 - tau i) * z - t') with ((tau i - t) * (1 - z) + (1 - t) * (z - (t' - t) / (1 - t))) by (field; lra).
    eapply Rle_trans; [apply Rabs_triang|]. rewrite !Rabs_mult, (Rabs_right (1 - z)), (Rabs_right (1 - t)) by lra.
    assert (X1 : Rabs (tau i - t) * (1 - z) <= gamma p 4 * (t - nth 0 planes 0) + INR i * tiny F) by (pose proof (Rabs_pos (tau i - t)); nra).
    assert (X2 : (1 - t) * Rabs (z - (t' - t) / (1 - t)) <= gamma p 4 * (t' - t) + tiny F).
    { apply Rle_trans with ((1 - t) * (gamma p 4 * ((t' - t) / (1 - t)) + tiny F)); [apply Rmult_le_compat_l; lra|].
      replace ((1 - t) * (gamma p 4 * ((t' - t) / (1 - t)) + tiny F)) with (gamma p 4 * (t' - t) + (1 - t) * tiny F) by (field; lra). nra. }
    lra.
Qed.
Lemma cuts_grid : machine_cuts_near F planes (map tau (seq 0 n)).
Proof using HF HR HP.
  assert (Ht : forall i, (i < n)%nat -> nth i (map tau (seq 0 n)) 0 = tau i).
  { intros i Hi. rewrite (nth_indep _ 0 (tau 0)) by (rewrite map_length, seq_length; auto). rewrite map_nth, seq_nth by auto. reflexivity. }
  assert (Hrho : forall i, (i < n)%nat -> 0 < rho i < 1) by (intros; apply rho_grid; auto).
  split; [now rewrite map_length, seq_length|]. intros i Hi. rewrite Ht by auto.
  split; [apply (tau_range rnd planes Hrho); auto|]. split; [apply tau_grid; auto|].
  intros Hs. rewrite Ht by auto. apply (tau_step rnd planes Hrho); auto.
Qed.

(** ** The loop *)
Context {V W : Type} {ow : VOps fl W} (fin : spline V -> spline W) (k : nat).
Context (Inv : nat -> spline V -> R -> Prop) (Part : nat -> spline V -> R -> R -> Prop) (d : spline V).
Notation split s x := (SplitAtPosition (o := oi) (ov := ow) s x k).
Hypothesis HI : forall i s a x, (i < n)%nat -> Inv i s a -> a < 1 -> 0 < x < 1 -> on_grid F x ->
  exists l r, split (fin s) (Fin x) = Ok [fin l; fin r] /\ Part i l a (a + (1 - a) * x) /\ Inv (S i) r (a + (1 - a) * x).
Hypothesis HE : forall s a, Inv n s a -> Part n s a 1.

Lemma iloop m : forall lo out a b, (1 <= lo)%nat -> (lo + m = n)%nat -> Inv lo b (tau (lo - 1)) ->
  exists parts a' b', for_up lo m (split_step (o := oi) (ov := ow) (map Fin planes) k) (map fin out, [a; fin b]) = Ok (map fin (out ++ parts), [a'; fin b']) /\
    length parts = m /\ Inv n b' (tau (n - 1)) /\
    forall i, (i < m)%nat -> Part (lo + i) (nth i parts d) (tau (lo + i - 1)) (tau (lo + i)).
Proof using HF HR HP HI.
  assert (Hrho : forall i, (i < n)%nat -> 0 < rho i < 1) by (intros; apply rho_grid; auto).
  induction m; intros lo out a b H1 Hlen Hb.
  - exists [], a, b. cbn [for_up]. rewrite app_nil_r. split; auto. split; auto. replace lo with n in Hb by lia. split; auto. intros i Hi. lia.
  - cbn [for_up]. unfold split_step at 1. rewrite (get_ok (Fin 0)) by (rewrite map_length; unfold n in *; lia). cbn [bind].
    rewrite (get_ok (Fin 0)) by (rewrite map_length; unfold n in *; lia). cbn [bind]. rewrite !(map_nth Fin).
    destruct lo as [|lo]; [lia|]. replace (S lo - 1)%nat with lo in * by lia. rewrite rho_div by lia.
    cbn [bind get nth_error]. pose proof (tau_range rnd planes Hrho lo ltac:(unfold n in *; lia)) as T1.
    destruct (rho_grid (S lo) ltac:(lia)) as (R1 & R2).
    destruct (HI (S lo) b (tau lo) (rho (S lo)) ltac:(lia) Hb ltac:(lra) R1 R2) as (l & r & E & PL & IR).
    change (tau lo + (1 - tau lo) * rho (S lo)) with (tau (S lo)) in PL, IR. rewrite E. cbn [bind get nth_error].
    destruct (IHm (S (S lo)) (out ++ [l]) (fin l) r ltac:(lia) ltac:(lia)) as (parts & a' & b' & E2 & L & IB & PP).
    { replace (S (S lo) - 1)%nat with (S lo) by lia. exact IR. }
    rewrite map_app in E2. cbn [map] in E2. exists (l :: parts), a', b'. rewrite E2, <- app_assoc. split; [reflexivity|].
    split; [cbn [length]; lia|]. split; [exact IB|].
    intros [|i] Hi; cbn [nth].
    + rewrite Nat.add_0_r. replace (S lo - 1)%nat with lo by lia. exact PL.
    + replace (S lo + S i)%nat with (S (S lo) + i)%nat by lia. apply PP. lia.
Qed.
Lemma sorted_fin l : (forall i, (S i < length l)%nat -> nth i l 0 < nth (S i) l 0) -> is_sorted (o := oi) (map Fin l) = true.
Proof using planes.
  induction l as [|a l IH]; intros H; auto. destruct l as [|b l]; auto. cbn [map is_sorted].
  apply andb_true_iff. split.
  - apply negb_true_iff. specialize (H 0%nat ltac:(cbn [length]; lia)). cbn [nth] in H. cbn [sltb SOps_ieee]. destruct (Rlt_dec b a); auto. lra.
  - apply IH. intros i Hi. apply (H (S i)). cbn [length] in *. lia.
Qed.
Lemma imulti s : Inv 0 s 0 -> (n = 0%nat -> Part 0 s 0 1) ->
  exists parts, SplitAtPositions (o := oi) (ov := ow) (fin s) (map Fin planes) k = Ok (map fin parts) /\ length parts = S n /\
    forall i, (i <= n)%nat -> Part i (nth i parts d) (cut_from (map tau (seq 0 n)) i) (cut_to (map tau (seq 0 n)) i).
Proof using HF HR HP HI HE.
  intros H0 H00. destruct (Nat.eq_dec n 0) as [En|Nn].
  { exists [s]. assert (Ep : planes = []) by (destruct planes; auto; discriminate). rewrite En. rewrite Ep. split; [reflexivity|]. split; [reflexivity|].
    intros i Hi. replace i with 0%nat by lia. apply H00. exact En. }
  rewrite (SplitAtPositions_step (o := oi) (ov := ow)).
  2:{ apply sorted_fin. intros i Hi. apply HP; lia. } 2:{ intros E. apply (f_equal (@length fl)) in E. rewrite map_length in E. cbn in E. unfold n in *. lia. }
  change (s0 (SOps := oi)) with (Fin 0). rewrite (map_nth Fin), map_length. destruct (rho_grid 0%nat ltac:(lia)) as (R1 & R2).
  destruct (HI 0%nat s 0 (rho 0) ltac:(lia) H0 ltac:(lra) R1 R2) as (l & r & E & PL & IR).
  replace (0 + (1 - 0) * rho 0) with (tau 0) in PL, IR by (cbn [cut_at]; ring). cbn [rel_at] in E. rewrite E. cbn [bind get nth_error].
  destruct (iloop (length planes - 1) 1 [l] (fin l) r ltac:(lia) ltac:(unfold n in *; lia) IR) as (parts & a' & b' & E2 & L & IB & PP).
  cbn [map] in E2. rewrite E2. cbn [bind get nth_error]. exists (([l] ++ parts) ++ [b']). split; [rewrite (map_app fin ([l] ++ parts)); reflexivity|].
  split; [rewrite !app_length; cbn [length]; unfold n in *; lia|].
  assert (Ht : forall i, (i < n)%nat -> nth i (map tau (seq 0 n)) 0 = tau i).
  { intros i Hi. rewrite (nth_indep _ 0 (tau 0)) by (rewrite map_length, seq_length; auto). rewrite map_nth, seq_nth by auto. reflexivity. }
  assert (Hl : length (map tau (seq 0 n)) = n) by now rewrite map_length, seq_length.
  unfold cut_from, cut_to.
  intros i Hi. destruct (Nat.eq_dec i n) as [->|Ni].
  - rewrite (app_nth2 (map tau _)) by lia. rewrite Hl, Nat.sub_diag. cbn [nth].
    destruct n as [|n'] eqn:Ed; [lia|]. cbn [nth app]. rewrite <- Ed in *. rewrite Ht by lia. rewrite (app_nth2 parts) by (unfold n in *; lia).
    replace (n' - length parts)%nat with 0%nat by (unfold n in *; lia). cbn [nth]. replace (n - 1)%nat with n' in IB by lia. apply HE. exact IB.
  - rewrite (app_nth1 (map tau _)) by lia. rewrite Ht by lia. destruct i as [|i]; cbn [nth app]; [exact PL|].
    rewrite Ht by lia. rewrite app_nth1 by (unfold n in *; lia). specialize (PP i ltac:(unfold n in *; lia)).
    replace (1 + i - 1)%nat with i in PP by lia. exact PP.
Qed.
End Pos.

(** ** The parts *)
Section Parts.
Context (F : format) (HF : reasonable F) (rnd : R -> R) (HR : nearest_on_grid F rnd).
Notation p := (prec F).
Notation oi := (SOps_ieee F rnd).
Context {V W : Type} {ov : VOps R V} {M : VMod R V} {ow : VOps fl W} (fin : spline V -> spline W) (mach : spline V -> Prop) (Pr : (V -> R) -> Prop).
Hypothesis Pr_hom : forall pr, Pr pr -> (forall a b, pr (vadd (VOps := ov) a b) = pr a + pr b) /\ (forall x a, pr (vscale (VOps := ov) x a) = x * pr a).
Definition bnd (s : spline V) (pr : V -> R) (B : R) : Prop := forall j, (j < n_coeffs (degrees s))%nat -> Rabs (pr (nth j (control_points s) v0)) <= B.
Hypothesis H90 : forall s x k, wf s -> (k < length (degrees s))%nat -> on_grid F x -> 0 < x < 1 -> mach s ->
  exists l r l0 r0, SplitAtPosition (o := oi) (ov := ow) (fin s) (Fin x) k = Ok [fin l; fin r] /\
    SplitAtPosition (ov := ov) s x k = Ok [l0; r0] /\
    wf l /\ wf r /\ degrees l = degrees s /\ degrees r = degrees s /\ mach l /\ mach r /\
    forall pr B, Pr pr -> bnd s pr B ->
      let err := gamma p (3 * nth k (degrees s) 0%nat) * B + underflow F (nth k (degrees s) 0%nat) in
      (forall i, (i < n_coeffs (degrees s))%nat ->
        Rabs (pr (nth i (control_points l) v0) - pr (nth i (control_points l0) v0)) <= err /\
        Rabs (pr (nth i (control_points r) v0) - pr (nth i (control_points r0) v0)) <= err) /\
      forall xs, length xs = length (degrees s) -> in_unit_box xs ->
        Rabs (pr (value_at l xs) - pr (value_at s (upd_list xs k (x * nth k xs 0)))) <= err /\
        Rabs (pr (value_at r xs) - pr (value_at s (upd_list xs k (x + (1 - x) * nth k xs 0)))) <= err.

(** The control points of an exact split are no larger than those of the spline. *)
Lemma split_bnd s x k l0 r0 pr B : wf s -> (k < length (degrees s))%nat -> 0 < x < 1 -> SplitAtPosition (ov := ov) s x k = Ok [l0; r0] ->
  Pr pr -> bnd s pr B -> forall i, (i < n_coeffs (degrees s))%nat -> Rabs (pr (nth i (control_points l0) v0)) <= B /\ Rabs (pr (nth i (control_points r0) v0)) <= B.
Proof using Pr_hom M.
  intros Hw Hk Hx E HP HB i Hi. destruct (Pr_hom pr HP) as (P1 & P2).
  destruct (SplitAtPosition_raw (ov := ov) s x k Hw Hk (slt0_R x ltac:(lra)) (slt_R x 1 ltac:(lra))) as (c1 & c2 & E' & L1 & L2 & N).
  rewrite E in E'. injection E' as -> ->. cbn [with_cps control_points].
  set (q := nth k (degrees s) 0%nat) in *. set (off := n_coeffs (firstn k (degrees s))) in *. set (cnt := n_coeffs (skipn (S k) (degrees s))) in *.
  assert (Hoff : (0 < off)%nat) by apply n_coeffs_pos.
  assert (Etot : n_coeffs (degrees s) = (off * (q + 1) * cnt)%nat).
  { rewrite (n_coeffs_split (degrees s) k), (skipn_cons_nth 0%nat (degrees s) k) by auto. rewrite n_coeffs_cons. fold q off cnt. lia. }
  rewrite Etot in Hi. destruct (nth_slice off q cnt i Hoff Hi) as (a & j & m & Ha & Hj & Hm & ->).
  destruct (N a j m Ha Hj Hm) as (A1 & A2). rewrite A1, A2, !(pr_dc (ov := ov) pr P1 P2).
  split; apply dc_abs; try lra; intros i' Hi'; apply HB; rewrite Etot; apply slice_in; auto; lia.
Qed.

Definition eps (q i : nat) (B : R) : R := gamma p (3 * q * i) * B + underflow F (q * i).
Lemma eps_0 q B : eps q 0 B = 0.
Proof using. unfold eps, gamma, underflow. rewrite !Nat.mul_0_r. cbn [pow INR]. ring. Qed.
Lemma eps_step q i B : eps q i B + (gamma p (3 * q) * (B + eps q i B) + underflow F q) <= eps q (S i) B.
Proof using.
  unfold eps, gamma, underflow. pose proof (tiny_pos F) as TP. set (T := tiny F) in *. set (v := 1 + / 2 ^ p).
  assert (Hv : 1 <= v) by (unfold v; pose proof (unit_pos p); lra).
  replace (3 * (q * i))%nat with (3 * q * i)%nat by lia. replace (3 * (q * S i))%nat with (3 * q * S i)%nat by lia.
  rewrite !(pow_mult v (3 * q)). set (G := v ^ (3 * q)). assert (HG : 1 <= G) by (apply pow_R1_Rle; auto).
  pose proof (pow_R1_Rle G i HG) as Hi. rewrite !mult_INR, S_INR. cbn [pow]. set (X := G ^ i) in *.
  pose proof (pos_INR q) as Q0. set (Q := INR q) in *. set (I := INR i).
  assert (D : Q * (I + 1) * T * (G * X) + (G * X - 1) * B - ((X - 1) * B + Q * I * T * X + ((G - 1) * (B + ((X - 1) * B + Q * I * T * X)) + Q * T * G)) = Q * T * G * (X - 1)) by ring.
  assert (0 <= Q * T * G * (X - 1)) by (apply Rmult_le_pos; [|lra]; apply Rmult_le_pos; [|lra]; apply Rmult_le_pos; lra). lra.
Qed.

(** What is known about an inexact rest [r] of [s] from [a] to [b] after [i] cuts. *)
Definition rest (s : spline V) (k i : nat) (r : spline V) (a b : R) : Prop :=
  wf r /\ degrees r = degrees s /\ mach r /\
  forall pr B, Pr pr -> bnd s pr B ->
    bnd r pr (B + eps (nth k (degrees s) 0%nat) i B) /\
    forall xs, length xs = length (degrees s) -> in_unit_box xs ->
      Rabs (pr (value_at r xs) - pr (value_at s (upd_list xs k (a + (b - a) * nth k xs 0)))) <= eps (nth k (degrees s) 0%nat) i B.
Lemma upd_upd (xs : list R) k y z : upd_list (upd_list xs k y) k z = upd_list xs k z.
Proof using. revert k. induction xs; intros [|k]; cbn [upd_list]; auto. now rewrite IHxs. Qed.
Lemma upd_unit (xs : list R) k y : in_unit_box xs -> 0 <= y <= 1 -> in_unit_box (upd_list xs k y).
Proof using. intros HX Hy. unfold in_unit_box in *. revert k. induction HX; intros [|k]; cbn [upd_list]; constructor; auto. Qed.

Lemma rest_split s k i r a x : (k < length (degrees s))%nat -> rest s k i r a 1 -> 0 < x < 1 -> on_grid F x ->
  exists l r', SplitAtPosition (o := oi) (ov := ow) (fin r) (Fin x) k = Ok [fin l; fin r'] /\
    rest s k (S i) l a (a + (1 - a) * x) /\ rest s k (S i) r' (a + (1 - a) * x) 1.
Proof using Pr_hom H90 M.
  intros Hk (Wr & Dr & Mr & HB) Hx Gx.
  destruct (H90 r x k Wr ltac:(now rewrite Dr) Gx Hx Mr) as (l & r' & l0 & r0 & E & E0 & W1 & W2 & D1 & D2 & M1 & M2 & K).
  exists l, r'. split; [exact E|]. unfold rest. rewrite D1, D2. set (q := nth k (degrees s) 0%nat) in *.
  assert (Key : forall pr B, Pr pr -> bnd s pr B ->
    (bnd l pr (B + eps q (S i) B) /\ forall xs, length xs = length (degrees s) -> in_unit_box xs ->
      Rabs (pr (value_at l xs) - pr (value_at s (upd_list xs k (a + (a + (1 - a) * x - a) * nth k xs 0)))) <= eps q (S i) B) /\
    (bnd r' pr (B + eps q (S i) B) /\ forall xs, length xs = length (degrees s) -> in_unit_box xs ->
      Rabs (pr (value_at r' xs) - pr (value_at s (upd_list xs k (a + (1 - a) * x + (1 - (a + (1 - a) * x)) * nth k xs 0)))) <= eps q (S i) B)).
  { intros pr B HP Hs. destruct (HB pr B HP Hs) as (B1 & B2). destruct (K pr _ HP B1) as (C1 & C2). rewrite Dr in C1, C2. fold q in C1, C2.
    pose proof (eps_step q i B) as ES. set (e := eps q i B) in *. set (e' := gamma p (3 * q) * (B + e) + underflow F q) in *. set (E' := eps q (S i) B) in *.
    assert (HS := split_bnd r x k l0 r0 pr _ Wr ltac:(now rewrite Dr) Hx E0 HP B1). rewrite Dr in HS.
    assert (Hn : forall y z b, Rabs (y - z) <= e' -> Rabs z <= B + e -> b = B + E' -> Rabs y <= b).
    { intros y z b Y Z ->. replace y with ((y - z) + z) by ring. eapply Rle_trans; [apply Rabs_triang|]. lra. }
    assert (Hxs : forall xs, length xs = length (degrees s) -> in_unit_box xs -> 0 <= nth k xs 0 <= 1).
    { intros xs HX HU. unfold in_unit_box in HU. rewrite Forall_forall in HU. apply HU, nth_In. lia. }
    assert (Hv : forall X Y Z, Rabs (X - Y) <= e' -> Rabs (Y - Z) <= e -> Rabs (X - Z) <= E').
    { intros X Y Z H1 H2. replace (X - Z) with ((X - Y) + (Y - Z)) by ring. eapply Rle_trans; [apply Rabs_triang|]. lra. }
    split; split.
    - intros j Hj. rewrite D1, Dr in Hj. eapply Hn; [apply (C1 j Hj)|apply (HS j Hj)|reflexivity].
    - intros xs HX HU. destruct (C2 xs HX HU) as (X1 & _). eapply Hv; [exact X1|]. pose proof (Hxs xs HX HU) as Y.
      specialize (B2 (upd_list xs k (x * nth k xs 0)) ltac:(now rewrite length_upd) ltac:(apply upd_unit; auto; nra)).
      rewrite upd_upd, nth_upd_same in B2 by lia. replace (a + (a + (1 - a) * x - a) * nth k xs 0) with (a + (1 - a) * (x * nth k xs 0)) by ring. exact B2.
    - intros j Hj. rewrite D2, Dr in Hj. eapply Hn; [apply (C1 j Hj)|apply (HS j Hj)|reflexivity].
    - intros xs HX HU. destruct (C2 xs HX HU) as (_ & X1). eapply Hv; [exact X1|]. pose proof (Hxs xs HX HU) as Y.
      specialize (B2 (upd_list xs k (x + (1 - x) * nth k xs 0)) ltac:(now rewrite length_upd) ltac:(apply upd_unit; auto; nra)).
      rewrite upd_upd, nth_upd_same in B2 by lia.
      replace (a + (1 - a) * x + (1 - (a + (1 - a) * x)) * nth k xs 0) with (a + (1 - a) * (x + (1 - x) * nth k xs 0)) by ring. exact B2. }
  split; (split; [auto|split; [auto|split; [auto|]]]); intros pr B HP Hs; apply (Key pr B HP Hs).
Qed.

Lemma ieee_splits_at s planes k : wf s -> (k < length (degrees s))%nat -> mach s -> machine_planes F planes ->
  let cuts := map (cut_at rnd planes) (seq 0 (length planes)) in
  exists parts, SplitAtPositions (o := oi) (ov := ow) (fin s) (map Fin planes) k = Ok (map fin parts) /\ length parts = S (length planes) /\
    machine_cuts_near F planes cuts /\
    forall i, (i <= length planes)%nat -> wf (nth i parts s) /\ degrees (nth i parts s) = degrees s /\ mach (nth i parts s) /\
      forall pr B, Pr pr -> bnd s pr B -> forall xs, length xs = length (degrees s) -> in_unit_box xs ->
        Rabs (pr (value_at (nth i parts s) xs) - pr (value_at s (in_part cuts k i xs))) <= part_error F (nth k (degrees s) 0%nat) (length planes) i B.
Proof using HF HR Pr_hom H90 M.
  intros W0 Hk Hm HP cuts. set (n := length planes).
  assert (R0 : rest s k 0 s 0 1).
  { split; auto. split; auto. split; auto. intros pr B Hpr HB. rewrite eps_0, Rplus_0_r. split; auto. intros xs HX HU.
    replace (0 + (1 - 0) * nth k xs 0) with (nth k xs 0) by ring.
    assert (E : upd_list xs k (nth k xs 0) = xs).
    { clear. revert k. induction xs; intros [|k]; cbn [upd_list nth]; auto. now rewrite IHxs. }
    rewrite E, Rminus_eq_0, Rabs_R0. lra. }
  destruct (imulti F HF rnd HR planes HP (ow := ow) fin k (fun i r a => rest s k i r a 1) (fun i r a b => rest s k (Nat.min (S i) n) r a b) s) with (s := s)
    as (parts & E & L & K); auto.
  - intros i r a x Hi Hr Ha Hx Gx. destruct (rest_split s k i r a x Hk Hr Hx Gx) as (l & r' & E & A1 & A2).
    exists l, r'. split; [exact E|]. split; [|exact A2]. fold n in Hi. replace (Nat.min (S i) n) with (S i) by lia. exact A1.
  - intros r a Hr. fold n in Hr |- *. replace (Nat.min (S n) n) with n by lia. exact Hr.
  - intros En. fold n in En. rewrite En. exact R0.
  - exists parts. split; [exact E|]. split; [exact L|]. split; [apply cuts_grid; auto|].
    intros i Hi. destruct (K i Hi) as (A1 & A2 & A3 & A4). split; auto. split; auto. split; auto. intros pr B Hpr HB xs HX HU.
    destruct (A4 pr B Hpr HB) as (_ & A5). exact (A5 xs HX HU).
Qed.
Lemma ieee_splits s planes k : wf s -> (k < length (degrees s))%nat -> mach s -> machine_planes F planes ->
  exists parts cuts, SplitAtPositions (o := oi) (ov := ow) (fin s) (map Fin planes) k = Ok (map fin parts) /\ length parts = S (length planes) /\
    machine_cuts_near F planes cuts /\
    forall i, (i <= length planes)%nat -> wf (nth i parts s) /\ degrees (nth i parts s) = degrees s /\ mach (nth i parts s) /\
      forall pr B, Pr pr -> bnd s pr B -> forall xs, length xs = length (degrees s) -> in_unit_box xs ->
        Rabs (pr (value_at (nth i parts s) xs) - pr (value_at s (in_part cuts k i xs))) <= part_error F (nth k (degrees s) 0%nat) (length planes) i B.
Proof using HF HR Pr_hom H90 M.
  intros W0 Hk Hm HP. destruct (ieee_splits_at s planes k W0 Hk Hm HP) as (parts & H). exists parts, (map (cut_at rnd planes) (seq 0 (length planes))). exact H.
Qed.
End Parts.
