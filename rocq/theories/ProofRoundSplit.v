(** Several subdivisions in one direction with rounding: the loop of SplitAtPosition(planes), the
    rounded relative positions, and the errors of the parts. *)
From Coq Require Import Arith Lia List ZArith NArith Bool Reals Lra Psatz.
From Verif Require Import Prelude Scalar Spec SpecSpline SpecRational Sums Order Coord ModelBasis ModelSpline ModelRational
  ModelRound ModelRoundMul SpecRound SpecRoundMul ProofIndex ProofBasis ProofEval ProofElevate ProofArith ProofSplit ProofMul ProofCompose
  ProofRational ProofRational2 ProofCasteljau ProofRaw ProofRound ProofRoundEval ProofRoundOps ProofRawMul ProofRoundMul ProofRoundCompose
  ClaimsB ClaimsE ClaimsU ClaimsX ClaimsRoundOps ClaimsRoundMul ModelRoundRat SpecRoundRat ProofRoundRat ProofRoundRat2 ProofRoundRat3 SpecRoundSplit
  ClaimsD ClaimsG.
Import ListNotations.
Local Open Scope R_scope.

(** ** The loop *)
(** The relative position, in the part of the parameter range that is left, at which cut [i] is made. *)
Definition rel_at (rnd : R -> R) (planes : list R) (i : nat) : R :=
  match i with
  | O => nth 0 planes 0
  | S j => rnd (rnd (nth (S j) planes 0 - nth j planes 0) / rnd (1 - nth j planes 0))
  end.
(** The parameter at which that cut is made. *)
Fixpoint cut_at (rnd : R -> R) (planes : list R) (i : nat) : R :=
  match i with
  | O => rel_at rnd planes 0
  | S j => cut_at rnd planes j + (1 - cut_at rnd planes j) * rel_at rnd planes (S j)
  end.
Section Loop.
Context (rnd : R -> R) {A : Type} (split : A -> R -> res (list A)) (planes : list R).
Notation ornd := (SOps_rnd rnd).

Definition mstep (i : nat) (st : list A * list A) : res (list A * list A) :=
  let '(out, sp) := st in
  do pi <- get planes i;
  do pm <- get planes (i - 1);
  do rel <- divS (H := ornd) (ssub (SOps := ornd) pi pm) (ssub (SOps := ornd) (s1 (SOps := ornd)) pm);
  do rest <- get sp 1;
  do sp <- split rest rel;
  do x <- get sp 0;
  Ok (out ++ [x], sp).
Definition multi (s : A) : res (list A) :=
  do sp <- split s (nth 0 planes 0);
  do x <- get sp 0;
  do '(out, sp) <- for_up 1 (length planes - 1) mstep ([x], sp);
  do x <- get sp 1;
  Ok (out ++ [x]).

Notation tau := (cut_at rnd planes).
Notation rho := (rel_at rnd planes).
Let n := length planes.
Context (Inv : nat -> A -> R -> Prop) (Part : nat -> A -> R -> R -> Prop) (d : A).
Hypothesis HI : forall i s a x, (i < n)%nat -> Inv i s a -> a < 1 -> 0 < x < 1 ->
  exists l r, split s x = Ok [l; r] /\ Part i l a (a + (1 - a) * x) /\ Inv (S i) r (a + (1 - a) * x).
Hypothesis HF : forall s a, Inv n s a -> Part n s a 1.
Hypothesis Hrho : forall i, (i < n)%nat -> 0 < rho i < 1.
Hypothesis Hden : forall i, (i < n)%nat -> rnd (1 - nth i planes 0) <> 0.

Lemma tau_range i : (i < n)%nat -> 0 < tau i < 1.
Proof using Hrho.
  induction i; intros Hi; [apply (Hrho 0); auto|]. specialize (IHi ltac:(lia)). pose proof (Hrho (S i) Hi). cbn [cut_at]. nra.
Qed.
Lemma tau_step i : (S i < n)%nat -> tau i < tau (S i).
Proof using Hrho.
  intros Hi. pose proof (tau_range i ltac:(lia)). pose proof (Hrho (S i) Hi). cbn [cut_at]. nra.
Qed.

Lemma mloop m : forall lo out a b, (1 <= lo)%nat -> (lo + m = n)%nat -> Inv lo b (tau (lo - 1)) ->
  exists parts a' b', for_up lo m mstep (out, [a; b]) = Ok (out ++ parts, [a'; b']) /\ length parts = m /\ Inv n b' (tau (n - 1)) /\
    forall i, (i < m)%nat -> Part (lo + i) (nth i parts d) (tau (lo + i - 1)) (tau (lo + i)).
Proof using HI Hrho Hden.
  induction m; intros lo out a b H1 Hlen Hb.
  - exists [], a, b. cbn [for_up]. rewrite app_nil_r. split; auto. split; auto. replace lo with n in Hb by lia. split; auto. intros i Hi. lia.
  - cbn [for_up]. unfold mstep at 1. rewrite (get_ok 0) by (unfold n in *; lia). cbn [bind]. rewrite (get_ok 0) by (unfold n in *; lia). cbn [bind].
    unfold divS. cbn [ssub s1 s0 seqb SOps_rnd sdiv].
    destruct (Req_EM_T (rnd (1 - nth (lo - 1) planes 0)) 0) as [E|_]; [exfalso; apply (Hden (lo - 1) ltac:(lia)); auto|].
    cbn [bind get nth_error].
    assert (Er' : rnd (rnd (nth lo planes 0 - nth (lo - 1) planes 0) / rnd (1 - nth (lo - 1) planes 0)) = rho lo).
    { destruct lo; [lia|]. cbn [rel_at]. replace (S lo - 1)%nat with lo by lia. reflexivity. }
    rewrite Er'. pose proof (tau_range (lo - 1) ltac:(lia)) as T1.
    destruct (HI lo b (tau (lo - 1)) (rho lo) ltac:(lia) Hb ltac:(lra) (Hrho lo ltac:(lia))) as (l & r & E & PL & IR).
    assert (Et : tau (lo - 1) + (1 - tau (lo - 1)) * rho lo = tau lo).
    { destruct lo; [lia|]. cbn [cut_at]. replace (S lo - 1)%nat with lo by lia. reflexivity. }
    rewrite Et in PL, IR. rewrite E. cbn [bind get nth_error].
    destruct (IHm (S lo) (out ++ [l]) l r ltac:(lia) ltac:(lia)) as (parts & a' & b' & E2 & L & IB & PP).
    { replace (S lo - 1)%nat with lo by lia. exact IR. }
    exists (l :: parts), a', b'. rewrite E2, <- app_assoc. split; [reflexivity|]. split; [cbn [length]; lia|]. split; [exact IB|].
    intros [|i] Hi; cbn [nth].
    + rewrite Nat.add_0_r. exact PL.
    + replace (lo + S i)%nat with (S lo + i)%nat by lia. apply PP. lia.
Qed.

Lemma multi_ok s : (0 < n)%nat -> Inv 0 s 0 ->
  exists parts, multi s = Ok parts /\ length parts = S n /\
    forall i, (i <= n)%nat -> Part i (nth i parts d) (nth i (0 :: map tau (seq 0 n)) 0) (nth i (map tau (seq 0 n) ++ [1]) 0).
Proof using HI HF Hrho Hden.
  intros Hn H0. unfold multi. destruct (HI 0%nat s 0 (rho 0) Hn H0 ltac:(lra) (Hrho 0%nat Hn)) as (l & r & E & PL & IR).
  replace (0 + (1 - 0) * rho 0) with (tau 0) in PL, IR by (cbn [cut_at]; ring). cbn [rel_at] in E. rewrite E. cbn [bind get nth_error].
  destruct (mloop (length planes - 1) 1 [l] l r ltac:(lia) ltac:(unfold n; lia) IR) as (parts & a' & b' & E2 & L & IB & PP).
  rewrite E2. cbn [bind get nth_error]. exists (([l] ++ parts) ++ [b']). split; [reflexivity|].
  split; [rewrite !app_length; cbn [length]; unfold n in *; lia|].
  assert (Ht : forall i, (i < n)%nat -> nth i (map tau (seq 0 n)) 0 = tau i).
  { intros i Hi. rewrite (nth_indep _ 0 (tau 0)) by (rewrite map_length, seq_length; auto). rewrite map_nth, seq_nth by auto. reflexivity. }
  assert (Hl : length (map tau (seq 0 n)) = n) by now rewrite map_length, seq_length.
  intros i Hi. destruct (Nat.eq_dec i n) as [->|Ni].
  - rewrite (app_nth2 (map tau _)) by lia. rewrite Hl, Nat.sub_diag. cbn [nth].
    destruct n as [|n'] eqn:En; [lia|]. cbn [nth app]. rewrite <- En in *. rewrite Ht by lia. rewrite (app_nth2 parts) by (unfold n in *; lia).
    replace (n' - length parts)%nat with 0%nat by (unfold n in *; lia). cbn [nth]. replace (n - 1)%nat with n' in IB by lia. apply HF. exact IB.
  - rewrite (app_nth1 (map tau _)) by lia. rewrite Ht by lia. destruct i as [|i]; cbn [nth app]; [exact PL|].
    rewrite Ht by lia. rewrite app_nth1 by (unfold n in *; lia). specialize (PP i ltac:(unfold n in *; lia)).
    replace (1 + i - 1)%nat with i in PP by lia. exact PP.
Qed.
End Loop.

(** ** Relative positions *)
Section Pos.
Context (p : nat) (rnd : R -> R) (Hp : (0 < p)%nat) (HR : nearest p rnd).
Let u := / 2 ^ p.

Lemma rnd_le x : 0 <= x -> (1 - u) * x <= rnd x <= (1 + u) * x.
Proof using Hp HR.
  intros Hx. pose proof (nearest_error p rnd Hp HR x) as H. fold u in H. rewrite (Rabs_right x) in H by lra.
  unfold Rabs in H. destruct (Rcase_abs (rnd x - x)); lra.
Qed.

Lemma rel_ok t t' : 0 <= t -> t < t' -> t' <= 1 - 3 * u ->
  rnd (1 - t) <> 0 /\ 0 < rnd (rnd (t' - t) / rnd (1 - t)) < 1 /\
  Rabs (rnd (rnd (t' - t) / rnd (1 - t)) - (t' - t) / (1 - t)) <= gamma p 4 * ((t' - t) / (1 - t)).
Proof using Hp HR.
  intros Ht Hlt H1. pose proof (unit_pos p) as U0. fold u in U0.
  assert (Up : 0 < u) by (apply Rinv_0_lt_compat, pow_lt; lra).
  assert (U3 : 3 * u < 1) by lra.
  pose proof (rnd_le (t' - t) ltac:(lra)) as A. pose proof (rnd_le (1 - t) ltac:(lra)) as B.
  set (a := rnd (t' - t)) in *. set (b := rnd (1 - t)) in *.
  assert (Bp : 0 < b) by nra. assert (Ap : 0 < a) by nra.
  set (r := (t' - t) / (1 - t)).
  assert (Er : t' - t = r * (1 - t)) by (unfold r; field; lra).
  assert (Rp : 0 < r) by (apply Rdiv_lt_0_compat; lra).
  assert (Rl : r <= 1 - 3 * u).
  { apply Rmult_le_reg_r with (1 - t); [lra|]. rewrite <- Er. nra. }
  set (q := a / b). assert (Eq : a = q * b) by (unfold q; field; lra).
  assert (Qp : 0 < q) by (apply Rdiv_lt_0_compat; lra).
  assert (Q1 : q * (1 - u) <= (1 + u) * r).
  { apply Rmult_le_reg_r with (1 - t); [lra|]. rewrite Er in A. nra. }
  assert (Q2 : (1 - u) * r <= q * (1 + u)).
  { apply Rmult_le_reg_r with (1 - t); [lra|]. rewrite Er in A. nra. }
  pose proof (rnd_le q ltac:(lra)) as Q. set (z := rnd q) in *.
  assert (Z1 : z * (1 - u) <= (1 + u) ^ 2 * r) by nra.
  assert (Z2 : (1 - u) ^ 2 * r <= z * (1 + u)) by nra.
  split; [lra|]. split.
  - split; [nra|]. apply Rmult_lt_reg_r with (1 - u); [lra|]. eapply Rle_lt_trans; [exact Z1|].
    apply Rle_lt_trans with ((1 + u) ^ 2 * (1 - 3 * u)); [apply Rmult_le_compat_l; nra|]. nra.
  - unfold gamma. fold u. apply Rabs_le. split.
    + assert (G : 4 * u <= (1 + u) ^ 4 - 1) by nra.
      assert (z >= (1 - 4 * u) * r); [|nra]. apply Rle_ge. apply Rmult_le_reg_r with (1 + u); [lra|]. eapply Rle_trans; [|exact Z2]. nra.
    + assert (z <= (1 + u) ^ 4 * r); [|nra]. apply Rmult_le_reg_r with (1 - u); [lra|]. eapply Rle_trans; [exact Z1|].
      assert (S1 : 1 <= (1 + u) ^ 2 * (1 - u)) by nra. replace ((1 + u) ^ 4 * r * (1 - u)) with ((1 + u) ^ 2 * r * ((1 + u) ^ 2 * (1 - u))) by ring.
      assert (0 <= (1 + u) ^ 2 * r) by nra. nra.
Qed.

Context (planes : list R).
Notation tau := (cut_at rnd planes).
Hypothesis Hpos : 0 < nth 0 planes 0.
Hypothesis Hinc : forall i, (S i < length planes)%nat -> nth i planes 0 < nth (S i) planes 0.
Hypothesis Hlast : forall i, (i < length planes)%nat -> nth i planes 0 <= 1 - 3 * u.

Lemma planes_pos i : (i < length planes)%nat -> 0 < nth i planes 0.
Proof using Hp Hpos Hinc. induction i; intros Hi; auto. specialize (IHi ltac:(lia)). pose proof (Hinc i Hi). lra. Qed.
Lemma rho_ok i : (i < length planes)%nat -> 0 < rel_at rnd planes i < 1.
Proof using Hp HR Hpos Hinc Hlast.
  intros Hi. assert (Up : 0 < u) by (apply Rinv_0_lt_compat, pow_lt; lra). destruct i as [|i].
  - cbn [rel_at]. pose proof (Hlast 0%nat Hi). lra.
  - cbn [rel_at]. apply rel_ok; [left; apply planes_pos; lia|apply Hinc; auto|apply Hlast; auto].
Qed.
Lemma den_ok i : (i < length planes)%nat -> rnd (1 - nth i planes 0) <> 0.
Proof using Hp HR Hpos Hinc Hlast.
  intros Hi. assert (Up : 0 < u) by (apply Rinv_0_lt_compat, pow_lt; lra). pose proof (planes_pos i Hi). pose proof (Hlast i Hi).
  pose proof (rnd_le (1 - nth i planes 0) ltac:(lra)). assert (0 < (1 - u) * (1 - nth i planes 0)) by (apply Rmult_lt_0_compat; lra). lra.
Qed.
Lemma tau_err i : (i < length planes)%nat -> Rabs (tau i - nth i planes 0) <= gamma p 4 * (nth i planes 0 - nth 0 planes 0).
Proof using Hp HR Hpos Hinc Hlast.
  assert (Up : 0 < u) by (apply Rinv_0_lt_compat, pow_lt; lra).
  induction i; intros Hi.
  - cbn [cut_at rel_at]. rewrite Rminus_eq_0, Rabs_R0. lra.
  - specialize (IHi ltac:(lia)). cbn [cut_at rel_at].
    destruct (rel_ok (nth i planes 0) (nth (S i) planes 0)) as (_ & H1 & H2); [left; apply planes_pos; lia|apply Hinc; auto|apply Hlast; auto|].
    set (t := nth i planes 0) in *. set (t' := nth (S i) planes 0) in *. set (z := rnd (rnd (t' - t) / rnd (1 - t))) in *.
    assert (T1 : t < 1) by (pose proof (Hlast i ltac:(lia)); fold t in H; lra).
    replace (tau i + (1 - tau i) * z - t') with ((tau i - t) * (1 - z) + (1 - t) * (z - (t' - t) / (1 - t))) by (field; lra).
    eapply Rle_trans; [apply Rabs_triang|]. rewrite !Rabs_mult, (Rabs_right (1 - z)), (Rabs_right (1 - t)) by lra.
    assert (X1 : Rabs (tau i - t) * (1 - z) <= gamma p 4 * (t - nth 0 planes 0)) by (pose proof (Rabs_pos (tau i - t)); nra).
    assert (X2 : (1 - t) * Rabs (z - (t' - t) / (1 - t)) <= gamma p 4 * (t' - t)).
    { apply Rle_trans with ((1 - t) * (gamma p 4 * ((t' - t) / (1 - t)))); [apply Rmult_le_compat_l; lra|].
      right. field. lra. }
    lra.
Qed.
End Pos.

(** ** The parts *)
Section Parts.
Context (p : nat) (rnd : R -> R) (Hp : (0 < p)%nat) (HR : nearest p rnd).
Let u := / 2 ^ p.
Let Hu : 0 <= u := unit_pos p.
Let Hr : forall x, Rabs (rnd x - x) <= u * Rabs x := nearest_error p rnd Hp HR.
Notation ornd := (SOps_rnd rnd).
Notation Vs := (VOps_scalar R (o := ornd)).

Lemma slt0_R x : 0 < x -> slt (s0 (SOps := SOps_R)) x.
Proof using. intros H. unfold slt; cbn [sltb s0 SOps_R]; destruct (Rlt_dec R0 x) as [|N]; auto; change R0 with 0 in N; lra. Qed.
Lemma slt_R x y : x < y -> slt (H := SOps_R) x y.
Proof using. intros H. unfold slt; cbn [sltb SOps_R]; destruct (Rlt_dec x y) as [|N]; auto; lra. Qed.
Lemma slt_r x y : x < y -> slt (H := ornd) x y.
Proof using. intros H. unfold slt; cbn [sltb SOps_rnd]; destruct (Rlt_dec x y) as [|N]; auto; lra. Qed.

Context {V : Type} {ovr : VOps R V} {ov : VOps R V} {M : VMod R V} (v0_r : v0 (VOps := ovr) = v0 (VOps := ov)).
Notation hom pr := (hom_to (o3 := ov) (o3r := ovr) rnd pr).

(** One more cut of a spline [s] that is already inexact and stands for [t]. *)
Lemma split_near (s t : spline V) (w : spline R) x k : wf s -> wf t -> wf w -> degrees t = degrees s -> degrees w = degrees s -> (k < length (degrees s))%nat -> 0 < x < 1 ->
  exists l r l0 r0 lw rw, SplitAtPosition (o := ornd) (ov := ovr) s x k = Ok [l; r] /\ SplitAtPosition (ov := ov) t x k = Ok [l0; r0] /\
    SplitAtPosition (V := R) w x k = Ok [lw; rw] /\
    (wf l /\ wf r /\ wf l0 /\ wf r0 /\ wf lw /\ wf rw) /\
    (degrees l = degrees s /\ degrees r = degrees s /\ degrees l0 = degrees s /\ degrees r0 = degrees s /\ degrees lw = degrees s /\ degrees rw = degrees s) /\
    (positive w -> positive lw /\ positive rw) /\
    forall pr B K, hom pr -> nclose p K pr B s t w ->
      nclose p (K + 3 * nth k (degrees s) 0%nat) pr B l l0 lw /\ nclose p (K + 3 * nth k (degrees s) 0%nat) pr B r r0 rw.
Proof using Hp HR M v0_r.
  intros Hw Hwt Hww Dt Dw Hk Hx. set (q := nth k (degrees s) 0%nat). set (off := n_coeffs (firstn k (degrees s))).
  set (cnt := n_coeffs (skipn (S k) (degrees s))).
  pose proof (slt0_R x ltac:(lra)) as H0. pose proof (slt_R x 1 ltac:(lra)) as H1.
  pose proof (slt_r 0 x ltac:(lra)) as H0r. pose proof (slt_r x 1 ltac:(lra)) as H1r.
  destruct (SplitAtPosition_raw (o := ornd) (ov := ovr) s x k Hw Hk H0r H1r) as (c1 & c2 & E & L1 & L2 & N1).
  destruct (SplitAtPosition_raw (ov := ov) t x k Hwt ltac:(now rewrite Dt) H0 H1) as (d1 & d2 & E' & L1' & L2' & N2).
  destruct (SplitAtPosition_raw (V := R) w x k Hww ltac:(now rewrite Dw) H0 H1) as (e1 & e2 & E'' & L1'' & L2'' & N3).
  rewrite Dt in N2. rewrite Dw in N3. fold q off cnt in N1, N2, N3.
  assert (Hoff : (0 < off)%nat) by apply n_coeffs_pos.
  assert (Etot : n_coeffs (degrees s) = (off * (q + 1) * cnt)%nat).
  { rewrite (n_coeffs_split (degrees s) k), (skipn_cons_nth 0%nat (degrees s) k) by auto.
    rewrite n_coeffs_cons. fold q off cnt. lia. }
  assert (Lc : length (control_points s) = n_coeffs (degrees s)) by apply Hw.
  assert (Lt : length (control_points t) = n_coeffs (degrees t)) by apply Hwt.
  assert (Lw : length (control_points w) = n_coeffs (degrees w)) by apply Hww.
  exists (with_cps s c1), (with_cps s c2), (with_cps t d1), (with_cps t d2), (with_cps w e1), (with_cps w e2).
  split; [exact E|]. split; [exact E'|]. split; [exact E''|].
  split; [repeat split_and; apply with_cps_wf; auto; congruence|]. split; [cbn [with_cps degrees]; repeat split; auto|].
  split.
  - intros HP. unfold positive in *. cbn [with_cps degrees control_points]. rewrite Dw in *. rewrite Etot.
    split; intros i Hi; destruct (nth_slice off q cnt i Hoff Hi) as (a & j & m & Ha & Hj & Hm & ->);
      destruct (N3 a j m Ha Hj Hm) as (A1 & A2); change (v0 (V := R)) with 0 in A1, A2; rewrite ?A1, ?A2;
      (apply dc_pos; [lra|]; intros i Hi'; apply HP; rewrite Etot; apply slice_in; auto; lia).
  - intros pr B K (P1 & P2 & P3 & P4 & P5) HB. unfold nclose in *. cbn [with_cps degrees control_points]. rewrite Dw in *. rewrite Etot.
    split; intros i Hi; destruct (nth_slice off q cnt i Hoff Hi) as (a & j & m & Ha & Hj & Hm & ->);
      destruct (N1 a j m Ha Hj Hm) as (A1 & A2); destruct (N2 a j m Ha Hj Hm) as (B1 & B2); destruct (N3 a j m Ha Hj Hm) as (C1 & C2);
      rewrite v0_r in A1, A2; change (v0 (V := R)) with 0 in C1, C2;
      rewrite ?A1, ?A2, ?B1, ?B2, ?C1, ?C2, (pr_dc_r rnd pr P3 P4), (pr_dc pr P1 P2), <- dc_scal.
    + apply (Er_up p Hp (K + 3 * j)); [lia|]. apply (dc_err rnd u Hu Hr); [lra|]. intros i Hi'. apply HB. rewrite Etot. apply slice_in; auto. lia.
    + apply (Er_up p Hp (K + 3 * (q - j))); [lia|]. apply (dc_err rnd u Hu Hr); [lra|]. intros i Hi'. apply HB. rewrite Etot. apply slice_in; auto. lia.
Qed.

(** [s'] stands for the part of [s] between [a] and [b] after [i] cuts, relative to the spline [w] of scales. *)
Definition near_piece (s : spline V) (w : spline R) (k i : nat) (s' : spline V) (a b : R) : Prop :=
  wf s' /\ degrees s' = degrees s /\ exists t w', piece (ov := ov) s t k a b /\ piece (V := R) w w' k a b /\ (positive w -> positive w') /\
    forall pr B, hom pr -> bounded pr B s w -> nclose p (i * (3 * nth k (degrees s) 0%nat)) pr B s' t w'.

Lemma near_split (s : spline V) (w : spline R) k i s' a x : degrees w = degrees s -> (k < length (degrees s))%nat -> 0 < x < 1 -> a < 1 ->
  near_piece s w k i s' a 1 ->
  exists l r, SplitAtPosition (o := ornd) (ov := ovr) s' x k = Ok [l; r] /\
    near_piece s w k (S i) l a (a + (1 - a) * x) /\ near_piece s w k (S i) r (a + (1 - a) * x) 1.
Proof using Hp HR M v0_r.
  intros Dw Hk Hx Ha (W & D & t & w' & Pt & Pw & Pos & HN).
  assert (X1 : a < a + (1 - a) * x) by nra. assert (X2 : a + (1 - a) * x < 1) by nra.
  assert (EX : (a + (1 - a) * x - a) / (1 - a) = x) by (field; lra).
  destruct (piece_split s t k a (a + (1 - a) * x) Hk Pt (slt_R _ _ X1) (slt_R _ 1 X2)) as (b1 & b2 & E & PB1 & PB2).
  destruct (piece_split w w' k a (a + (1 - a) * x) ltac:(now rewrite Dw) Pw (slt_R _ _ X1) (slt_R _ 1 X2)) as (c1 & c2 & F & PC1 & PC2).
  cbn [sdiv ssub s1 SOps_R] in E, F. change R1 with 1 in E, F. rewrite EX in E, F.
  destruct (split_near s' t w' x k W ltac:(apply Pt) ltac:(apply Pw) ltac:(destruct Pt as (_ & -> & _); auto) ltac:(destruct Pw as (_ & -> & _); congruence) ltac:(now rewrite D) Hx)
    as (l & r & l0 & r0 & lw & rw & E1 & E2 & E3 & (W1 & W2 & _) & (D1 & D2 & _) & Pos2 & HN2).
  rewrite E in E2. injection E2 as <- <-. rewrite F in E3. injection E3 as <- <-. rewrite D in D1, D2.
  assert (EK : (S i * (3 * nth k (degrees s) 0) = i * (3 * nth k (degrees s) 0) + 3 * nth k (degrees s') 0)%nat) by (rewrite D; lia).
  exists l, r. split; [exact E1|]. split; (split; [assumption|]; split; [assumption|]).
  - exists b1, c1. split; [exact PB1|]. split; [exact PC1|]. split; [intros HP; apply Pos2; auto|].
    intros pr B HH HB. rewrite EK. apply (HN2 pr B _ HH). apply HN; auto.
  - exists b2, c2. split; [exact PB2|]. split; [exact PC2|]. split; [intros HP; apply Pos2; auto|].
    intros pr B HH HB. rewrite EK. apply (HN2 pr B _ HH). apply HN; auto.
Qed.
Lemma near_refl (s : spline V) (w : spline R) k : wf s -> wf w -> degrees w = degrees s -> (k < length (degrees s))%nat -> near_piece s w k 0 s 0 1.
Proof using M.
  intros W Ww Dw Hk. split; auto. split; auto. exists s, w. split; [apply (piece_refl (o := SOps_R) (ov := ov) s k W Hk)|].
  split; [apply (piece_refl (o := SOps_R) (V := R) w k Ww ltac:(now rewrite Dw))|]. split; auto.
  intros pr B HH HB i Hi. apply Er_of. apply HB. auto.
Qed.
End Parts.

(** ** Polynomial splines *)
Section Final.
Context (p : nat) (rnd : R -> R) (Hp : (0 < p)%nat) (HR : nearest p rnd).
Let u := / 2 ^ p.
Notation ornd := (SOps_rnd rnd).
Notation Vs := (VOps_scalar R (o := ornd)).

Lemma sorted_rnd planes : (forall i, (S i < length planes)%nat -> nth i planes 0 < nth (S i) planes 0) -> is_sorted (o := ornd) planes = true.
Proof using Hp.
  induction planes as [|a l IH]; intros H; auto. destruct l as [|b l]; auto. cbn [is_sorted].
  apply andb_true_iff. split.
  - apply negb_true_iff. specialize (H 0%nat ltac:(cbn [length]; lia)). cbn [nth] in H. cbn [sltb SOps_rnd]. destruct (Rlt_dec b a); auto. lra.
  - apply IH. intros i Hi. apply (H (S i)). cbn [length] in *. lia.
Qed.

Lemma cuts_ok planes : planes_inside p planes ->
  (forall i, (i < length planes)%nat -> 0 < rel_at rnd planes i < 1) /\ (forall i, (i < length planes)%nat -> rnd (1 - nth i planes 0) <> 0) /\
  cuts_near p planes (map (cut_at rnd planes) (seq 0 (length planes))).
Proof using Hp HR.
  intros H. destruct planes as [|t planes].
  { repeat split; intros; cbn [length] in *; lia. }
  set (pl := t :: planes) in *. assert (Hn : (0 < length pl)%nat) by (cbn; lia).
  assert (A1 : 0 < nth 0 pl 0) by apply (H 0%nat Hn).
  assert (A2 : forall i, (S i < length pl)%nat -> nth i pl 0 < nth (S i) pl 0) by (intros i Hi; apply (H i); lia).
  assert (A3 : forall i, (i < length pl)%nat -> nth i pl 0 <= 1 - 3 * / 2 ^ p) by (intros i Hi; apply (H i); lia).
  pose proof (rho_ok p rnd Hp HR pl A1 A2 A3) as Hrho.
  split; [exact Hrho|]. split; [exact (den_ok p rnd Hp HR pl A1 A2 A3)|].
  assert (Ht : forall i, (i < length pl)%nat -> nth i (map (cut_at rnd pl) (seq 0 (length pl))) 0 = cut_at rnd pl i).
  { intros i Hi. rewrite (nth_indep _ 0 (cut_at rnd pl 0)) by (rewrite map_length, seq_length; auto). rewrite map_nth, seq_nth by auto. reflexivity. }
  split; [now rewrite map_length, seq_length|]. intros i Hi. rewrite Ht by auto.
  split; [apply tau_range; auto|]. split; [apply (tau_err p rnd Hp HR pl A1 A2 A3); auto|].
  intros Hs. rewrite Ht by auto. apply tau_step; auto.
Qed.

Definition ones (degs : list nat) : spline R := mkSpline degs (n_coeffs degs) (offsets degs) (repeat 1 (n_coeffs degs)).
Lemma ones_wf degs : degs <> [] -> wf (ones degs).
Proof using. intros H. split; auto. split; auto. split; auto. apply repeat_length. Qed.
Lemma ones_nth degs i : (i < n_coeffs degs)%nat -> nth i (control_points (ones degs)) 0 = 1.
Proof using. intros H. apply (repeat_spec (n_coeffs degs)). apply nth_In. rewrite repeat_length. auto. Qed.
Lemma ones_value degs xs : length xs = length degs -> value_at (V := R) (ones degs) xs = 1.
Proof using Hp.
  intros H. transitivity (bezier (V := R) degs xs (fun _ => 1)); [|apply (bezier_const (V := R)); auto].
  unfold value_at. cbn [degrees ones]. apply bezier_ext. intros i Hi. apply ones_nth. auto.
Qed.

Context {V : Type} {ovr : VOps R V} {ov : VOps R V} {M : VMod R V} (v0_r : v0 (VOps := ovr) = v0 (VOps := ov)).
Notation hom pr := (hom_to (o3 := ov) (o3r := ovr) rnd pr).

Lemma near_value (s s' : spline V) k i a b pr B xs : wf s -> near_piece p rnd (ovr := ovr) (ov := ov) s (ones (degrees s)) k i s' a b ->
  hom pr -> (forall j, (j < n_coeffs (degrees s))%nat -> Rabs (pr (nth j (control_points s) v0)) <= B) ->
  length xs = length (degrees s) -> in_unit_box xs ->
  Rabs (pr (value_at (ov := ov) s' xs) - pr (value_at (ov := ov) s (upd_list xs k (a + (b - a) * nth k xs 0)))) <= gamma p (i * (3 * nth k (degrees s) 0%nat)) * B.
Proof using Hp HR M.
  intros W (W' & D' & t & w' & (Wt & Dt & Vt) & (Ww & Dw & Vw) & _ & HN) HH HB HX HU. pose proof HH as (P1 & P2 & _).
  specialize (HN pr B HH). set (K := (i * (3 * nth k (degrees s) 0))%nat) in *.
  assert (HN' : nclose p K pr B s' t w') by (apply HN; intros j Hj; cbn [degrees ones] in Hj; rewrite ones_nth, Rmult_1_r by auto; apply HB; auto).
  clear HN. cbn [degrees ones] in Dw, Vw.
  assert (EG : (1 + / 2 ^ p) ^ K = 1 + gamma p K) by (unfold gamma; ring).
  assert (G0 : 0 <= gamma p K) by (apply gamma_pos; auto).
  assert (E : Er (1 + gamma p K) (pr (value_at (ov := ov) s' xs)) (pr (value_at (ov := ov) t xs)) B).
  { assert (EB : B = bezier (V := R) (degrees s) xs (fun i => B * nth i (control_points w') 0)).
    { rewrite bez_scale by auto. specialize (Vw xs HX). unfold value_at at 1 in Vw. rewrite Dw in Vw. change (v0 (V := R)) with 0 in Vw. rewrite Vw, ones_value; [ring|]. now rewrite length_upd. }
    rewrite EB. unfold value_at. rewrite D', Dt. rewrite !(pr_bezier (ov := ov) pr P1 P2) by auto.
    apply Er_bez; auto; [lra|]. intros j Hj. rewrite <- EG. apply HN'. now rewrite Dw. }
  destruct E as (E & _). rewrite (Vt xs HX) in E. cbn [sadd smul ssub s0 SOps_R] in E. change R0 with 0 in E. replace (1 + gamma p K - 1) with (gamma p K) in E by ring. exact E.
Qed.

Lemma g_splits (s : spline V) planes k : wf s -> (k < length (degrees s))%nat -> planes_inside p planes ->
  exists parts cuts, SplitAtPositions (o := ornd) (ov := ovr) s planes k = Ok parts /\ length parts = S (length planes) /\ cuts_near p planes cuts /\
    forall i, (i <= length planes)%nat -> wf (nth i parts s) /\ degrees (nth i parts s) = degrees s /\
      forall pr B, hom pr -> (forall j, (j < n_coeffs (degrees s))%nat -> Rabs (pr (nth j (control_points s) v0)) <= B) ->
      forall xs, length xs = length (degrees s) -> in_unit_box xs ->
        Rabs (pr (value_at (ov := ov) (nth i parts s) xs) - pr (value_at (ov := ov) s (in_part cuts k i xs))) <=
          gamma p (part_roundings (nth k (degrees s) 0%nat) (length planes) i) * B.
Proof using Hp HR M v0_r.
  intros W Hk HPl. destruct (cuts_ok planes HPl) as (Hrho & Hden & HC).
  assert (Hne : degrees s <> []) by apply W.
  pose proof (near_refl p rnd (ovr := ovr) (ov := ov) s (ones (degrees s)) k W (ones_wf _ Hne) eq_refl Hk) as N0.
  set (n := length planes) in *.
  set (Inv := fun i s' a => near_piece p rnd (ovr := ovr) (ov := ov) s (ones (degrees s)) k i s' a 1).
  set (Part := fun i s' a b => near_piece p rnd (ovr := ovr) (ov := ov) s (ones (degrees s)) k (Nat.min (S i) n) s' a b).
  assert (Main : exists parts, SplitAtPositions (o := ornd) (ov := ovr) s planes k = Ok parts /\ length parts = S n /\
    forall i, (i <= n)%nat -> Part i (nth i parts s) (nth i (0 :: map (cut_at rnd planes) (seq 0 n)) 0) (nth i (map (cut_at rnd planes) (seq 0 n) ++ [1]) 0)).
  { destruct (Nat.eq_dec n 0) as [En|Nn].
    - exists [s]. assert (Ep : planes = []) by (destruct planes; auto; discriminate). rewrite En. subst planes. split; [reflexivity|]. split; [reflexivity|].
      intros i Hi. replace i with 0%nat by lia. exact N0.
    - rewrite (SplitAtPositions_step (o := ornd) (ov := ovr)).
      2:{ apply sorted_rnd. intros i Hi. apply (HPl i); lia. } 2:{ intros Ep. apply Nn. unfold n. rewrite Ep. reflexivity. }
      apply (multi_ok rnd (fun s x => SplitAtPosition (o := ornd) (ov := ovr) s x k) planes Inv Part s); auto; [| |lia].
      + intros i s' a x Hi HI Ha Hx. unfold Inv, Part in *.
        destruct (near_split p rnd Hp HR v0_r s (ones (degrees s)) k i s' a x eq_refl Hk Hx Ha HI) as (l & r & E & A1 & A2).
        exists l, r. split; [exact E|]. split; [|exact A2]. fold n in Hi. replace (Nat.min (S i) n) with (S i) by lia. exact A1.
      + intros s' a HI. unfold Inv, Part in *. fold n in HI |- *. replace (Nat.min (S n) n) with n by lia. exact HI. }
  destruct Main as (parts & E & L & HP). exists parts, (map (cut_at rnd planes) (seq 0 n)).
  split; [exact E|]. split; [exact L|]. split; [exact HC|]. intros i Hi. pose proof (HP i Hi) as N. pose proof N as (W' & D' & _).
  split; [exact W'|]. split; [exact D'|]. intros pr B HH HB xs HX HU.
  replace (part_roundings (nth k (degrees s) 0%nat) n i) with (Nat.min (S i) n * (3 * nth k (degrees s) 0))%nat by (unfold part_roundings; lia).
  apply (near_value s (nth i parts s) k (Nat.min (S i) n)); auto.
Qed.

(** ** Rational splines *)
Definition near_rat (r : rspline R V) (k i : nat) (r' : rspline R V) (a b : R) : Prop :=
  let K := (i * (3 * nth k (rdegrees r) 0))%nat in
  rwf r' /\ rdegrees r' = rdegrees r /\ exists t w', piece (ov := ov) (weighted_spline r) t k a b /\ piece (V := R) (weight_function r) w' k a b /\
    positive w' /\ wclose p K (weight_function r') w' /\
    forall pr B, hom pr -> bounded pr B (weighted_spline r) (weight_function r) -> nclose p K pr B (weighted_spline r') t w'.

Lemma near_rat_split (r : rspline R V) k i r' a x : rwf r -> (k < length (rdegrees r))%nat -> 0 < x < 1 -> a < 1 ->
  near_rat r k i r' a 1 ->
  exists l m, R_SplitAtPosition (o := ornd) (ov := ovr) r' x k = Ok [l; m] /\
    near_rat r k (S i) l a (a + (1 - a) * x) /\ near_rat r k (S i) m (a + (1 - a) * x) 1.
Proof using Hp HR M v0_r.
  intros (Wu & Ww & Dw) Hk Hx Ha ((Wu' & Ww' & Dw') & D & t & w' & Pt & Pw & Pos & HW & HN). unfold rdegrees in *.
  assert (X1 : a < a + (1 - a) * x) by nra. assert (X2 : a + (1 - a) * x < 1) by nra.
  assert (EX : (a + (1 - a) * x - a) / (1 - a) = x) by (field; lra).
  destruct (piece_split (weighted_spline r) t k a (a + (1 - a) * x) Hk Pt (slt_R _ _ X1) (slt_R _ 1 X2)) as (b1 & b2 & E & PB1 & PB2).
  destruct (piece_split (weight_function r) w' k a (a + (1 - a) * x) ltac:(now rewrite Dw) Pw (slt_R _ _ X1) (slt_R _ 1 X2)) as (c1 & c2 & F & PC1 & PC2).
  cbn [sdiv ssub s1 SOps_R] in E, F. change R1 with 1 in E, F. rewrite EX in E, F.
  assert (Dt : degrees t = degrees (weighted_spline r)) by apply Pt. assert (Dv : degrees w' = degrees (weighted_spline r)) by (rewrite <- Dw; apply Pw).
  destruct (split_near p rnd Hp HR v0_r (weighted_spline r') t w' x k Wu' ltac:(apply Pt) ltac:(apply Pw) ltac:(congruence) ltac:(congruence) ltac:(now rewrite D) Hx)
    as (l & m & l0 & m0 & lw & mw & E1 & E2 & E3 & (W1 & W2 & _) & (D1 & D2 & _) & Pos2 & HN2).
  rewrite E in E2. injection E2 as <- <-. rewrite F in E3. injection E3 as <- <-. rewrite D in D1, D2.
  destruct (split_near p rnd Hp HR (V := R) (ovr := Vs) (ov := VR) eq_refl (weight_function r') w' w' x k Ww' ltac:(apply Pw) ltac:(apply Pw) ltac:(congruence) ltac:(congruence) ltac:(now rewrite Dw', D) Hx)
    as (fl & fm & fl0 & fm0 & flw & fmw & F1 & F2 & F3 & (V1 & V2 & _) & (G1 & G2 & _) & _ & HN3).
  rewrite F in F2, F3. injection F2 as <- <-. injection F3 as <- <-. rewrite Dw', D in G1, G2, HN3. rewrite D in HN2.
  assert (EK : (S i * (3 * nth k (degrees (weighted_spline r)) 0) = i * (3 * nth k (degrees (weighted_spline r)) 0) + 3 * nth k (degrees (weighted_spline r)) 0)%nat) by lia.
  destruct (Pos2 Pos) as (Q1 & Q2).
  destruct (HN3 (fun x => x) 1 (i * (3 * nth k (degrees (weighted_spline r)) 0))%nat (id_hom rnd)) as (Y1 & Y2).
  { intros j Hj. rewrite Rmult_1_l. apply HW. auto. }
  unfold R_SplitAtPosition. rewrite E1. cbn [bind]. rewrite F1. cbn [bind get nth_error].
  rewrite R_mk_ok by congruence. cbn [bind]. rewrite R_mk_ok by congruence. cbn [bind].
  exists (mkR l fl), (mkR m fm). split; [reflexivity|]. unfold near_rat, rdegrees. cbn [weighted_spline weight_function].
  split; (split; [split; [|split]; cbn [weighted_spline weight_function]; auto; congruence|]; split; [assumption|]).
  - exists b1, c1. split; [exact PB1|]. split; [exact PC1|]. split; [exact Q1|]. rewrite EK. split; [apply (wclose_of _ _ _ _ c1); auto|].
    intros pr B HH HB. apply (HN2 pr B _ HH). apply HN; auto.
  - exists b2, c2. split; [exact PB2|]. split; [exact PC2|]. split; [exact Q2|]. rewrite EK. split; [apply (wclose_of _ _ _ _ c2); auto|].
    intros pr B HH HB. apply (HN2 pr B _ HH). apply HN; auto.
Qed.
Lemma near_rat_refl (r : rspline R V) k : rwf r -> (k < length (rdegrees r))%nat -> positive (weight_function r) -> near_rat r k 0 r 0 1.
Proof using M.
  intros W Hk HP. pose proof W as (Wu & Ww & Dw). unfold rdegrees in *. split; auto. split; auto. exists (weighted_spline r), (weight_function r).
  split; [apply (piece_refl (o := SOps_R) (ov := ov) _ k Wu Hk)|]. split; [apply (piece_refl (o := SOps_R) (V := R) _ k Ww ltac:(now rewrite Dw))|].
  split; auto. split.
  - intros i Hi. split; [apply HP; auto|]. apply Er_of. specialize (HP i Hi). rewrite Rabs_right; lra.
  - intros pr B HH HB i Hi. apply Er_of. apply HB. auto.
Qed.

Lemma g_rsplits (r : rspline R V) planes k : rwf r -> (k < length (rdegrees r))%nat -> planes_inside p planes -> positive (weight_function r) ->
  exists parts cuts, R_SplitAtPositions (o := ornd) (ov := ovr) r planes k = Ok parts /\ length parts = S (length planes) /\ cuts_near p planes cuts /\
    forall i, (i <= length planes)%nat -> rwf (nth i parts r) /\ rdegrees (nth i parts r) = rdegrees r /\
      let K := part_roundings (nth k (rdegrees r) 0%nat) (length planes) i in
      (gamma p K < 1 -> positive (weight_function (nth i parts r)) /\
       forall pr B, hom pr -> bounded pr B (weighted_spline r) (weight_function r) ->
         approximates p (ov := ov) K (nth i parts r) (rdegrees r) (fun xs => rvalue (ov := ov) r (in_part cuts k i xs)) pr B).
Proof using Hp HR M v0_r.
  intros W Hk HPl HPos. destruct (cuts_ok planes HPl) as (Hrho & Hden & HC).
  pose proof (near_rat_refl r k W Hk HPos) as N0.
  set (n := length planes) in *.
  set (Inv := fun i r' a => near_rat r k i r' a 1).
  set (Part := fun i r' a b => near_rat r k (Nat.min (S i) n) r' a b).
  assert (Main : exists parts, R_SplitAtPositions (o := ornd) (ov := ovr) r planes k = Ok parts /\ length parts = S n /\
    forall i, (i <= n)%nat -> Part i (nth i parts r) (nth i (0 :: map (cut_at rnd planes) (seq 0 n)) 0) (nth i (map (cut_at rnd planes) (seq 0 n) ++ [1]) 0)).
  { destruct (Nat.eq_dec n 0) as [En|Nn].
    - exists [r]. assert (Ep : planes = []) by (destruct planes; auto; discriminate). rewrite En. subst planes. split; [reflexivity|]. split; [reflexivity|].
      intros i Hi. replace i with 0%nat by lia. exact N0.
    - rewrite (R_Positions_step (o := ornd) (ov := ovr)).
      2:{ apply sorted_rnd. intros i Hi. apply (HPl i); lia. } 2:{ intros Ep. apply Nn. unfold n. rewrite Ep. reflexivity. }
      apply (multi_ok rnd (fun s x => R_SplitAtPosition (o := ornd) (ov := ovr) s x k) planes Inv Part r); auto; [| |lia].
      + intros i s' a x Hi HI Ha Hx. unfold Inv, Part in *.
        destruct (near_rat_split r k i s' a x W Hk Hx Ha HI) as (l & m & E & A1 & A2).
        exists l, m. split; [exact E|]. split; [|exact A2]. fold n in Hi. replace (Nat.min (S i) n) with (S i) by lia. exact A1.
      + intros s' a HI. unfold Inv, Part in *. fold n in HI |- *. replace (Nat.min (S n) n) with n by lia. exact HI. }
  destruct Main as (parts & E & L & HP). exists parts, (map (cut_at rnd planes) (seq 0 n)).
  split; [exact E|]. split; [exact L|]. split; [exact HC|]. intros i Hi. pose proof (HP i Hi) as N.
  destruct N as (W' & D' & t & w' & Pt & Pw & Pos & HW & HN).
  replace (Nat.min (S i) n * (3 * nth k (rdegrees r) 0))%nat with (part_roundings (nth k (rdegrees r) 0%nat) n i) in HW, HN by (unfold part_roundings; lia).
  split; [exact W'|]. split; [exact D'|]. set (K := part_roundings (nth k (rdegrees r) 0%nat) n i) in *. cbv zeta. intros HG.
  pose proof W as (Wu & Ww & Dw).
  destruct (conclude p rnd Hp HR (ovr := ovr) (ov := ov) K (nth i parts r) t w' (rdegrees r) (fun xs => rvalue (ov := ov) r (in_part (map (cut_at rnd planes) (seq 0 n)) k i xs))) as (A1 & A2); auto.
  { apply Pt. } { apply Pw. } { apply Pt. } { unfold rdegrees. rewrite <- Dw. apply Pw. }
  { intros xs HX HU _. unfold rvalue. destruct Pt as (_ & _ & Vt). destruct Pw as (_ & _ & Vw).
    rewrite Vt by auto. rewrite Vw by (now rewrite Dw). reflexivity. }

Qed.
End Final.

(** ** Moving a parameter *)
Lemma dc_abs B x f r j : 0 <= x <= 1 -> (forall i, (j <= i <= j + r)%nat -> Rabs (f i) <= B) -> Rabs (dc (V := R) x f r j) <= B.
Proof.
  intros Hx. revert j; induction r; intros j H; cbn [dc]; [apply H; lia|]. cbn [vadd vscale VOps_scalar sadd smul ssub s1 SOps_R]. change R1 with 1.
  assert (A := IHr j ltac:(intros; apply H; lia)). assert (C := IHr (S j) ltac:(intros; apply H; lia)).
  eapply Rle_trans; [apply Rabs_triang|]. rewrite !Rabs_mult, (Rabs_right (1 - x)), (Rabs_right x) by lra. nra.
Qed.
Lemma dc_move B x y f r j : 0 <= x <= 1 -> 0 <= y <= 1 -> (forall i, (j <= i <= j + r)%nat -> Rabs (f i) <= B) ->
  Rabs (dc (V := R) y f r j - dc (V := R) x f r j) <= 2 * INR r * B * Rabs (y - x).
Proof.
  intros Hx Hy. revert j; induction r; intros j H.
  { cbn [dc]. rewrite Rminus_eq_0, Rabs_R0. simpl INR. lra. }
  cbn [dc]. cbn [vadd vscale VOps_scalar sadd smul ssub s1 SOps_R]. change R1 with 1.
  assert (A := IHr j ltac:(intros; apply H; lia)). assert (C := IHr (S j) ltac:(intros; apply H; lia)).
  assert (A1 := dc_abs B x f r j Hx ltac:(intros; apply H; lia)). assert (C1 := dc_abs B x f r (S j) Hx ltac:(intros; apply H; lia)).
  set (a := dc y f r j) in *. set (b := dc y f r (S j)) in *. set (c := dc x f r j) in *. set (d := dc x f r (S j)) in *.
  replace ((1 - y) * a + y * b - ((1 - x) * c + x * d)) with ((1 - y) * (a - c) + (y * (b - d) + (y - x) * (d - c))) by ring.
  rewrite S_INR. eapply Rle_trans; [apply Rabs_triang|]. pose proof (Rabs_triang (y * (b - d)) ((y - x) * (d - c))) as T.
  rewrite !Rabs_mult, ?(Rabs_right (1 - y)), ?(Rabs_right y) in * by lra.
  assert (D : Rabs (d - c) <= 2 * B).
  { pose proof (Rabs_triang d (- c)) as T2. rewrite Rabs_Ropp in T2. unfold Rminus. lra. }
  pose proof (Rabs_pos (y - x)) as P. set (e := Rabs (y - x)) in *. set (n := INR r) in *. nra.
Qed.
Lemma dct_move B degs : forall xs k y f, length xs = length degs -> in_unit_box xs -> (k < length degs)%nat -> 0 <= y <= 1 ->
  (forall i, (i < n_coeffs degs)%nat -> Rabs (f i) <= B) ->
  Rabs (dct (V := R) degs (upd_list xs k y) f - dct (V := R) degs xs f) <= 2 * INR (nth k degs 0%nat) * B * Rabs (y - nth k xs 0).
Proof.
  induction degs as [|q degs IH]; intros [|x xs] k y f HL HX Hk Hy H; try discriminate; [cbn in Hk; lia|].
  cbn [length] in HL, Hk. injection HL as HL. assert (Hx : 0 <= x <= 1) by (inversion HX; auto). assert (HX' : in_unit_box xs) by (inversion HX; auto).
  assert (HI : forall m i, (m < n_coeffs degs)%nat -> (i <= q)%nat -> Rabs (f (i + S q * m)%nat) <= B).
  { intros m i Hm Hi. apply H. rewrite n_coeffs_cons. nia. }
  destruct k as [|k]; cbn [upd_list dct nth].
  - rewrite !dct_bezier by auto. set (D := 2 * INR q * B * Rabs (y - x)).
    replace D with (bezier (V := R) degs xs (fun _ => D)) by (apply (bezier_const (V := R)); auto).
    change (Rabs (vsub (V := R) (bezier degs xs (fun m => dc y (fun j => f (j + S q * m)%nat) q 0)) (bezier degs xs (fun m => dc x (fun j => f (j + S q * m)%nat) q 0)))
      <= bezier (V := R) degs xs (fun _ => D)). rewrite <- bezier_sub.
    apply bez_abs; auto. intros m Hm. apply dc_move; auto. intros i Hi. apply HI; auto. lia.
  - apply IH; auto; [lia|]. intros m Hm. apply dc_abs; auto. intros i Hi. apply HI; auto. lia.
Qed.
Lemma value_move {V} {ov : VOps R V} {M : VMod R V} (s : spline V) pr B xs k y y' :
  (forall a b, pr (vadd (VOps := ov) a b) = pr a + pr b) -> (forall x a, pr (vscale (VOps := ov) x a) = x * pr a) ->
  length xs = length (degrees s) -> in_unit_box xs -> (k < length (degrees s))%nat -> 0 <= y <= 1 -> 0 <= y' <= 1 ->
  (forall i, (i < n_coeffs (degrees s))%nat -> Rabs (pr (nth i (control_points s) v0)) <= B) ->
  Rabs (pr (value_at s (upd_list xs k y')) - pr (value_at s (upd_list xs k y))) <= 2 * INR (nth k (degrees s) 0%nat) * B * Rabs (y' - y).
Proof.
  intros P1 P2 HL HX Hk Hy Hy' H. unfold value_at.
  rewrite !(pr_bezier (ov := ov) pr P1 P2) by (now rewrite length_upd). rewrite <- !dct_bezier by (now rewrite length_upd).
  assert (E : upd_list xs k y' = upd_list (upd_list xs k y) k y').
  { clear. revert k. induction xs; intros [|k]; cbn [upd_list]; auto. now rewrite <- IHxs. }
  assert (Y : nth k (upd_list xs k y) 0 = y) by (apply nth_upd_same; lia).
  rewrite E. rewrite <- Y at 3. apply dct_move; auto; [now rewrite length_upd|].
  clear -HX Hy. unfold in_unit_box in *. revert k. induction HX; intros [|k]; cbn [upd_list]; constructor; auto.
Qed.
Lemma in_part_unit (cuts : list R) i x : (forall j, (j < length cuts)%nat -> 0 < nth j cuts 0 < 1) -> 0 <= x <= 1 -> (i <= length cuts)%nat ->
  0 <= cut_from cuts i + (cut_to cuts i - cut_from cuts i) * x <= 1.
Proof.
  intros H Hx Hi. assert (A : 0 <= cut_from cuts i <= 1).
  { unfold cut_from. destruct i as [|i]; cbn [nth]; [lra|]. pose proof (H i ltac:(lia)). lra. }
  assert (B : 0 <= cut_to cuts i <= 1).
  { unfold cut_to. destruct (Nat.eq_dec i (length cuts)) as [->|]; [rewrite app_nth2, Nat.sub_diag by lia; cbn; lra|]. rewrite app_nth1 by lia. pose proof (H i ltac:(lia)). lra. }
  nra.
Qed.
Lemma cuts_planes p planes cuts i x : (0 < p)%nat -> planes_inside p planes -> cuts_near p planes cuts -> 0 <= x <= 1 -> (i <= length planes)%nat ->
  Rabs (cut_from cuts i + (cut_to cuts i - cut_from cuts i) * x - (cut_from planes i + (cut_to planes i - cut_from planes i) * x)) <= gamma p 4.
Proof.
  intros Hp HI (L & HC) Hx Hi. pose proof (gamma_pos p Hp 4) as G.
  assert (H : forall j, (j < length planes)%nat -> Rabs (nth j cuts 0 - nth j planes 0) <= gamma p 4).
  { intros j Hj. destruct (HC j Hj) as (_ & C & _). eapply Rle_trans; [exact C|]. destruct (HI j Hj) as (A & _). destruct (HI 0%nat ltac:(lia)) as (A0 & _).
    assert (0 < / 2 ^ p) by (apply Rinv_0_lt_compat, pow_lt; lra). nra. }
  assert (A : Rabs (cut_from cuts i - cut_from planes i) <= gamma p 4).
  { unfold cut_from. destruct i as [|i]; cbn [nth]; [rewrite Rminus_eq_0, Rabs_R0; auto|apply H; lia]. }
  assert (B : Rabs (cut_to cuts i - cut_to planes i) <= gamma p 4).
  { unfold cut_to. destruct (Nat.eq_dec i (length planes)) as [->|].
    - rewrite <- L at 1. rewrite !app_nth2, !Nat.sub_diag by lia. cbn [nth]. rewrite Rminus_eq_0, Rabs_R0; auto.
    - rewrite !app_nth1 by lia. apply H; lia. }
  set (a := cut_from cuts i) in *. set (a' := cut_from planes i) in *. set (b := cut_to cuts i) in *. set (b' := cut_to planes i) in *.
  replace (a + (b - a) * x - (a' + (b' - a') * x)) with ((1 - x) * (a - a') + x * (b - b')) by ring.
  eapply Rle_trans; [apply Rabs_triang|]. rewrite !Rabs_mult, (Rabs_right (1 - x)), (Rabs_right x) by lra. nra.
Qed.

Lemma at_planes {V} {ov : VOps R V} {M : VMod R V} p (s part : spline V) pr B planes cuts k i xs e : (0 < p)%nat ->
  (forall a b, pr (vadd (VOps := ov) a b) = pr a + pr b) -> (forall x a, pr (vscale (VOps := ov) x a) = x * pr a) ->
  length xs = length (degrees s) -> in_unit_box xs -> (k < length (degrees s))%nat ->
  (forall i, (i < n_coeffs (degrees s))%nat -> Rabs (pr (nth i (control_points s) v0)) <= B) ->
  planes_inside p planes -> cuts_near p planes cuts -> (i <= length planes)%nat ->
  Rabs (pr (value_at part xs) - pr (value_at s (in_part cuts k i xs))) <= e * B ->
  Rabs (pr (value_at part xs) - pr (value_at s (in_part planes k i xs))) <= (e + 2 * INR (nth k (degrees s) 0%nat) * gamma p 4) * B.
Proof.
  intros Hp P1 P2 HX HU Hk HB HI HC Hi H. pose proof HC as (L & HC').
  assert (Up : 0 < / 2 ^ p) by (apply Rinv_0_lt_compat, pow_lt; lra).
  assert (Hx : 0 <= nth k xs 0 <= 1).
  { unfold in_unit_box in HU. rewrite Forall_forall in HU. apply HU, nth_In. lia. }
  assert (B0 : 0 <= B) by (eapply Rle_trans; [apply Rabs_pos|apply (HB 0%nat); apply n_coeffs_pos]).
  pose proof (value_move s pr B xs k (cut_from planes i + (cut_to planes i - cut_from planes i) * nth k xs 0) (cut_from cuts i + (cut_to cuts i - cut_from cuts i) * nth k xs 0) P1 P2 HX HU Hk
    ltac:(apply in_part_unit; auto; intros j Hj; destruct (HI j Hj); lra)
    ltac:(apply in_part_unit; auto; [intros j Hj; apply (HC' j); lia|lia]) HB) as K.
  pose proof (cuts_planes p planes cuts i (nth k xs 0) Hp HI HC Hx Hi) as D. fold (in_part cuts k i xs) in K. fold (in_part planes k i xs) in K.
  set (q := 2 * INR (nth k (degrees s) 0%nat)) in *. assert (Q : 0 <= q) by (pose proof (pos_INR (nth k (degrees s) 0%nat)); unfold q; lra).
  assert (K2 : q * B * Rabs (cut_from cuts i + (cut_to cuts i - cut_from cuts i) * nth k xs 0 - (cut_from planes i + (cut_to planes i - cut_from planes i) * nth k xs 0)) <= q * B * gamma p 4)
    by (apply Rmult_le_compat_l; auto; apply Rmult_le_pos; auto).
  set (X := pr (value_at part xs)) in *. set (Y := pr (value_at s (in_part cuts k i xs))) in *. set (Z := pr (value_at s (in_part planes k i xs))) in *.
  replace (X - Z) with ((X - Y) + (Y - Z)) by ring. eapply Rle_trans; [apply Rabs_triang|]. lra.
Qed.
