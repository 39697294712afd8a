(** The unit interval in rounded arithmetic. *)
From Coq Require Import Arith Lia List ZArith NArith Bool Reals Lra.
From Verif Require Import Prelude Scalar Spec SpecSpline Coord Sums ModelBasis ModelSpline ModelRational ModelScalar ProofIndex ProofBasis ProofEval
  ProofCasteljau ProofRaw ModelRound SpecRound ProofRound ProofCube.
Import ListNotations.
Local Open Scope R_scope.

Section Unit.
Context (p : nat) (rnd : R -> R) (Hp : (0 < p)%nat) (HR : nearest p rnd).
Notation ornd := (SOps_rnd rnd).
Notation u := (/ 2 ^ p).

Lemma u_pos : 0 < u.
Proof using Hp HR. apply Rinv_0_lt_compat, pow_lt. lra. Qed.
Lemma u_half : u <= 1 / 2.
Proof using Hp HR.
  replace (1 / 2) with (/ 2) by lra. apply Rinv_le_contravar; [lra|]. destruct p as [|q]; [lia|]. cbn [pow].
  assert (1 <= 2 ^ q) by (apply pow_R1_Rle; lra). lra.
Qed.

Lemma rnd_mono x y : x <= y -> rnd x <= rnd y.
Proof using Hp HR.
  intros H. destruct (Rle_or_lt (rnd x) (rnd y)) as [|L]; [auto|exfalso].
  destruct (Req_dec x y) as [->|N]; [lra|].
  destruct (HR x) as (Rx & Bx). destruct (HR y) as (Ry & By). specialize (Bx _ Ry). specialize (By _ Rx).
  unfold Rabs in *. repeat destruct (Rcase_abs _); lra.
Qed.
Lemma rep_0 : representable p 0.
Proof using Hp HR. exists 0%Z, 0%Z. split; [apply Z.pow_pos_nonneg; lia|simpl; ring]. Qed.
Lemma rep_1 : representable p 1.
Proof using Hp HR. exists 1%Z, 0%Z. split; [|simpl; ring]. change (Z.abs 1) with (2 ^ 0)%Z. apply Z.pow_lt_mono_r; lia. Qed.
Lemma rnd_0' : rnd 0 = 0.
Proof using Hp HR. apply (nearest_exact p); auto. apply rep_0. Qed.
Lemma rnd_1' : rnd 1 = 1.
Proof using Hp HR. apply (nearest_exact p); auto. apply rep_1. Qed.
Lemma rnd_rep x : representable p (rnd x).
Proof using Hp HR. apply HR. Qed.
Lemma rnd_id x : representable p x -> rnd x = x.
Proof using Hp HR. apply nearest_exact; auto. Qed.
Lemma rnd_nonneg x : 0 <= x -> 0 <= rnd x.
Proof using Hp HR. intros. rewrite <- rnd_0'. apply rnd_mono; auto. Qed.
Lemma rnd_le1 x : x <= 1 -> rnd x <= 1.
Proof using Hp HR. intros. rewrite <- rnd_1'. apply rnd_mono; auto. Qed.

(** The next number above a power of two. *)
Lemma above_power x k : representable p x -> powerRZ 2 k < x -> powerRZ 2 k * (1 + 2 * u) <= x.
Proof using Hp HR.
  intros (m & e & Hm & ->) H. pose proof (two_pos k) as Pk. pose proof (two_pos e) as Pe.
  assert (M0 : (0 < m)%Z).
  { apply lt_IZR. apply Rmult_lt_reg_r with (powerRZ 2 e); auto. lra. }
  set (k' := (k - Z.of_nat p + 1)%Z).
  assert (U : powerRZ 2 k * (2 * u) = powerRZ 2 k').
  { unfold k'. replace (k - Z.of_nat p + 1)%Z with (k + (- Z.of_nat p) + 1)%Z by lia. rewrite !two_add. simpl (powerRZ 2 1).
    replace (2 ^ p) with (powerRZ 2 (Z.of_nat p)) by (symmetry; apply pow_powerRZ).
    pose proof (two_inv (Z.of_nat p)) as I. pose proof (two_pos (Z.of_nat p)). replace (/ powerRZ 2 (Z.of_nat p)) with (powerRZ 2 (- Z.of_nat p)); [ring|].
    field_simplify_eq; lra. }
  assert (K : (k' <= e)%Z).
  { destruct (Z_le_gt_dec k' e) as [|G]; [auto|exfalso].
    assert (IZR m * powerRZ 2 e <= powerRZ 2 k).
    { apply Rle_trans with (powerRZ 2 (Z.of_nat p) * powerRZ 2 e).
      - apply Rmult_le_compat_r; [lra|]. rewrite <- two_IZR. apply IZR_le. rewrite Z.abs_eq in Hm by lia. lia.
      - rewrite <- two_add. apply two_le. unfold k' in G. lia. }
    lra. }
  assert (E : powerRZ 2 e = IZR (2 ^ (e - k')) * powerRZ 2 k').
  { rewrite <- (Z2Nat.id (e - k')) by lia. rewrite two_IZR, Z2Nat.id by lia. rewrite <- two_add. f_equal. lia. }
  assert (E2 : powerRZ 2 k = IZR (2 ^ (Z.of_nat p - 1)) * powerRZ 2 k').
  { replace (Z.of_nat p - 1)%Z with (Z.of_nat (p - 1)) by lia. rewrite two_IZR, <- two_add. f_equal. unfold k'. lia. }
  rewrite Rmult_plus_distr_l, Rmult_1_r, U. rewrite E2, E in *. pose proof (two_pos k') as Pk'.
  assert (L : (2 ^ (Z.of_nat p - 1) + 1 <= m * 2 ^ (e - k'))%Z).
  { cut (2 ^ (Z.of_nat p - 1) < m * 2 ^ (e - k'))%Z; [lia|].
    apply lt_IZR. rewrite mult_IZR. apply Rmult_lt_reg_r with (powerRZ 2 k'); auto. lra. }
  apply IZR_le in L. rewrite plus_IZR, mult_IZR in L. apply Rmult_le_compat_r with (r := powerRZ 2 k') in L; lra.
Qed.

Lemma rnd_below x : x < 1 + u -> rnd x <= 1.
Proof using Hp HR.
  intros H. destruct (Rle_or_lt x 1) as [L|L]; [apply rnd_le1; auto|].
  destruct (Rle_or_lt (rnd x) 1) as [|G]; [auto|exfalso]. destruct (HR x) as (Rx & B).
  pose proof (above_power (rnd x) 0 Rx) as A. simpl (powerRZ 2 0) in A. specialize (A G). specialize (B 1 rep_1).
  rewrite (Rabs_left (1 - x)) in B by lra. unfold Rabs in B. pose proof u_pos. destruct (Rcase_abs (rnd x - x)); lra.
Qed.

Lemma complement x : 0 <= x <= 1 -> rnd (rnd (1 - x) + x) <= 1.
Proof using Hp HR.
  intros H. destruct (Req_dec x 0) as [->|N]; [rewrite Rminus_0_r, rnd_1', Rplus_0_r, rnd_1'; lra|].
  apply rnd_below. pose proof (nearest_error p rnd Hp HR (1 - x)) as B. rewrite (Rabs_right (1 - x)) in B by lra.
  pose proof u_pos as U. assert (u * (1 - x) < u * 1) by (apply Rmult_lt_compat_l; lra). unfold Rabs in B. destruct (Rcase_abs _); lra.
Qed.

(** Half a unit in the last place. *)
Lemma half_ulp x : 0 < x -> rnd x - x <= u * powerRZ 2 (expo x).
Proof using Hp HR.
  intros H. destruct (HR x) as (_ & HB).
  assert (Hx : x <> 0) by lra.
  specialize (HB _ (representable_le p _ (expo' p x) Hp (mant_int p x Hp Hx))).
  pose proof (mant_eq p x) as Ex. set (y := mant p x) in *. set (e := expo' p x) in *.
  replace (IZR (near_int y) * powerRZ 2 e - x) with ((IZR (near_int y) - y) * powerRZ 2 e) in HB by (replace x with (y * powerRZ 2 e) by (symmetry; exact Ex); ring).
  rewrite Rabs_mult, (Rabs_right (powerRZ 2 e)) in HB by (left; apply two_pos).
  pose proof (near_int_spec y) as NS. pose proof (two_pos e) as Pe.
  apply (Rmult_le_compat_r (powerRZ 2 e)) in NS; [|lra].
  assert (EU : / 2 * powerRZ 2 e = u * powerRZ 2 (expo x)).
  { unfold e, expo'. rewrite (Rabs_right x) by lra. replace (expo x - (Z.of_nat p - 1))%Z with (expo x + (- Z.of_nat p) + 1)%Z by lia.
    rewrite !two_add. simpl (powerRZ 2 1). replace (2 ^ p) with (powerRZ 2 (Z.of_nat p)) by (symmetry; apply pow_powerRZ).
    pose proof (two_inv (Z.of_nat p)) as I. pose proof (two_pos (Z.of_nat p)). replace (/ powerRZ 2 (Z.of_nat p)) with (powerRZ 2 (- Z.of_nat p)); [field|].
    field_simplify_eq; lra. }
  rewrite EU in NS. pose proof (Rle_abs (rnd x - x)). lra.
Qed.

Lemma inverse w : 0 < w -> rnd (w * rnd (1 / w)) <= 1.
Proof using Hp HR.
  intros Hw. apply rnd_below. assert (Hy : 0 < 1 / w) by (apply Rdiv_lt_0_compat; lra).
  set (y := 1 / w) in *. assert (WY : w * y = 1) by (unfold y; field; lra).
  pose proof (half_ulp y Hy) as HU. destruct (exponent y Hy) as (E1 & E2). pose proof (two_pos (expo y)) as PE. pose proof u_pos as U.
  destruct (Rle_or_lt (rnd y) y) as [L|L].
  - apply Rmult_le_compat_l with (r := w) in L; lra.
  - assert (A := above_power (rnd y) (expo y) (rnd_rep y) ltac:(lra)).
    assert (S : rnd y < y * (1 + u)).
    { destruct (Rle_or_lt (powerRZ 2 (expo y) * (1 + u)) y) as [G|G].
      - assert (u * powerRZ 2 (expo y) < u * y); [|lra]. apply Rmult_lt_compat_l; [auto|].
        assert (0 < powerRZ 2 (expo y) * u) by (apply Rmult_lt_0_compat; auto). lra.
      - lra. }
    apply Rmult_lt_compat_l with (r := w) in S; [|auto]. replace (w * (y * (1 + u))) with ((w * y) * (1 + u)) in S by ring. rewrite WY in S. lra.
Qed.

(** One step of de Casteljau and of elevation. *)
Lemma blend_mono x a b a' b' : 0 <= x <= 1 -> a <= a' -> b <= b' ->
  rnd (rnd (rnd (1 - x) * a) + rnd (x * b)) <= rnd (rnd (rnd (1 - x) * a') + rnd (x * b')).
Proof using Hp HR.
  intros Hx Ha Hb. assert (0 <= rnd (1 - x)) by (apply rnd_nonneg; lra).
  apply rnd_mono. apply Rplus_le_compat; apply rnd_mono; apply Rmult_le_compat_l; lra.
Qed.
Lemma blend_unit x a b : representable p x -> 0 <= x <= 1 -> 0 <= a <= 1 -> 0 <= b <= 1 ->
  0 <= rnd (rnd (rnd (1 - x) * a) + rnd (x * b)) <= 1.
Proof using Hp HR.
  intros Rx Hx Ha Hb. split.
  - rewrite <- rnd_0'. replace 0 with (rnd (rnd (1 - x) * 0) + rnd (x * 0)) at 1 by (rewrite !Rmult_0_r, rnd_0'; ring).
    apply blend_mono; lra.
  - eapply Rle_trans; [apply (blend_mono x a b 1 1); lra|]. rewrite !Rmult_1_r, (rnd_id (rnd _)) by apply rnd_rep. rewrite (rnd_id x) by auto.
    apply complement; auto.
Qed.
End Unit.
