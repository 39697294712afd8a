(** Rounding to nearest: relative error, existence, and relations that lose accuracy step by step. *)
From Coq Require Import Arith Lia List ZArith NArith Bool Reals Lra.
From Verif Require Import Prelude Scalar SpecSpline ModelBasis ModelSpline ModelRational ModelRound ProofParam.
Import ListNotations.
Local Open Scope R_scope.

(** ** Powers of two *)
Lemma two_pos e : 0 < powerRZ 2 e.
Proof. apply powerRZ_lt. lra. Qed.
Lemma two_add a b : powerRZ 2 (a + b) = powerRZ 2 a * powerRZ 2 b.
Proof. apply powerRZ_add. lra. Qed.
Lemma two_inv e : powerRZ 2 e * powerRZ 2 (- e) = 1.
Proof. rewrite <- two_add. replace (e + - e)%Z with 0%Z by lia. reflexivity. Qed.
Lemma two_le a b : (a <= b)%Z -> powerRZ 2 a <= powerRZ 2 b.
Proof.
  intros H. replace b with (a + (b - a))%Z by lia. rewrite two_add.
  rewrite <- (Rmult_1_r (powerRZ 2 a)) at 1. apply Rmult_le_compat_l; [left; apply two_pos|].
  replace (b - a)%Z with (Z.of_nat (Z.to_nat (b - a))) by lia. rewrite <- pow_powerRZ. apply pow_R1_Rle. lra.
Qed.
Lemma two_IZR p : IZR (2 ^ Z.of_nat p) = powerRZ 2 (Z.of_nat p).
Proof. rewrite <- pow_powerRZ. symmetry. apply pow_IZR. Qed.

(** The binary exponent of a positive number. *)
Definition expo (x : R) : Z := Int_part (ln x / ln 2).
Lemma exponent x : 0 < x -> powerRZ 2 (expo x) <= x < powerRZ 2 (expo x + 1).
Proof.
  intros H. unfold expo. set (k := Int_part (ln x / ln 2)).
  assert (L2 : 0 < ln 2) by (rewrite <- ln_1; apply ln_increasing; lra).
  destruct (base_Int_part (ln x / ln 2)) as (H1 & H2). fold k in H1, H2.
  assert (E1 : IZR k * ln 2 <= ln x).
  { apply (Rmult_le_compat_r (ln 2)) in H1; [|lra]. replace (ln x / ln 2 * ln 2) with (ln x) in H1 by (field; lra). auto. }
  assert (E2 : ln x < IZR (k + 1) * ln 2).
  { rewrite plus_IZR. assert (H3 : ln x / ln 2 < IZR k + 1) by lra. apply (Rmult_lt_compat_r (ln 2)) in H3; [|lra].
    replace (ln x / ln 2 * ln 2) with (ln x) in H3 by (field; lra). auto. }
  clearbody k. rewrite !powerRZ_Rpower by lra. unfold Rpower. pattern x at 1 2. rewrite <- (exp_ln x) by auto. split.
  - destruct E1 as [E1| ->]; [left; apply exp_increasing; auto|right; auto].
  - apply exp_increasing. auto.
Qed.
(** The exponent for which the mantissa has [p] digits. *)
Definition expo' (p : nat) (x : R) : Z := (expo (Rabs x) - (Z.of_nat p - 1))%Z.
Lemma exponent' p x : x <> 0 ->
  powerRZ 2 (Z.of_nat p - 1) <= Rabs (x * powerRZ 2 (- expo' p x)) < powerRZ 2 (Z.of_nat p).
Proof.
  intros H. unfold expo'. destruct (exponent (Rabs x)) as (H1 & H2); [apply Rabs_pos_lt; auto|].
  set (e := expo (Rabs x)) in *. assert (HP := two_pos (- (e - (Z.of_nat p - 1)))).
  rewrite Rabs_mult, (Rabs_right (powerRZ 2 _)) by lra.
  assert (H3 := two_add e (- (e - (Z.of_nat p - 1)))). replace (e + - (e - (Z.of_nat p - 1)))%Z with (Z.of_nat p - 1)%Z in H3 by lia.
  assert (H4 := two_add (e + 1) (- (e - (Z.of_nat p - 1)))). replace (e + 1 + - (e - (Z.of_nat p - 1)))%Z with (Z.of_nat p) in H4 by lia.
  rewrite H3, H4. split; [apply Rmult_le_compat_r; lra|apply Rmult_lt_compat_r; lra].
Qed.

(** Nearest integer. *)
Definition near_int (y : R) : Z := Int_part (y + / 2).
Lemma near_int_spec y : Rabs (IZR (near_int y) - y) <= / 2.
Proof. destruct (base_Int_part (y + / 2)) as (H1 & H2). unfold near_int. apply Rabs_le. lra. Qed.
Lemma near_int_best y k : Rabs (IZR (near_int y) - y) <= Rabs (IZR k - y).
Proof.
  destruct (Z.eq_dec k (near_int y)) as [->|N]; [lra|].
  pose proof (near_int_spec y) as H. assert (H1 : 1 <= Rabs (IZR k - IZR (near_int y))).
  { rewrite <- minus_IZR, <- abs_IZR. apply IZR_le. lia. }
  replace (IZR k - IZR (near_int y)) with ((IZR k - y) - (IZR (near_int y) - y)) in H1 by ring.
  pose proof (Rabs_triang (IZR k - y) (- (IZR (near_int y) - y))) as H2. rewrite Rabs_Ropp in H2. unfold Rminus in *. lra.
Qed.

(** Rounding the mantissa to the nearest integer. *)
Definition mant (p : nat) (x : R) : R := x * powerRZ 2 (- expo' p x).
Definition round_to (p : nat) (x : R) : R :=
  if Req_EM_T x 0 then 0 else IZR (near_int (mant p x)) * powerRZ 2 (expo' p x).
Lemma mant_eq p x : x = mant p x * powerRZ 2 (expo' p x).
Proof. unfold mant. rewrite Rmult_assoc, (Rmult_comm (powerRZ 2 (- _))), two_inv. ring. Qed.
Lemma mant_int p x : (0 < p)%nat -> x <> 0 -> (Z.abs (near_int (mant p x)) <= 2 ^ Z.of_nat p)%Z.
Proof.
  intros Hp Hx. destruct (exponent' p x Hx) as (H1 & H2). fold (mant p x) in H1, H2. rewrite <- two_IZR in H2.
  set (k := (2 ^ Z.of_nat p)%Z) in *. set (y := mant p x) in *.
  pose proof (near_int_best y k) as B1. pose proof (near_int_best y (- k)) as B2. apply le_IZR. rewrite abs_IZR.
  rewrite opp_IZR in B2. assert (Hk' : - IZR k < y < IZR k) by (apply Rabs_def2 in H2; lra).
  apply Rabs_le. unfold Rabs in B1, B2.
  destruct (Rcase_abs (IZR (near_int y) - y)), (Rcase_abs (IZR k - y)), (Rcase_abs (- IZR k - y)); lra.
Qed.
Lemma representable_le p m e : (0 < p)%nat -> (Z.abs m <= 2 ^ Z.of_nat p)%Z -> representable p (IZR m * powerRZ 2 e).
Proof.
  intros Hp Hm. destruct (Z.eq_dec (Z.abs m) (2 ^ Z.of_nat p)) as [E|N]; [|exists m, e; split; [lia|auto]].
  assert (E2 : (2 ^ Z.of_nat p = 2 * 2 ^ Z.of_nat (p - 1))%Z).
  { rewrite <- Z.pow_succ_r by lia. f_equal. lia. }
  assert (HP : (0 < 2 ^ Z.of_nat (p - 1))%Z) by (apply Z.pow_pos_nonneg; lia).
  exists (Z.sgn m * 2 ^ Z.of_nat (p - 1))%Z, (e + 1)%Z. split.
  - rewrite Z.abs_mul. destruct (Z.abs_spec (Z.sgn m)), (Z.sgn_spec m) as [[? ?]|[[? ?]|[? ?]]]; lia.
  - rewrite two_add. replace (powerRZ 2 1) with 2 by (simpl; ring).
    assert (Em : m = (2 * (Z.sgn m * 2 ^ Z.of_nat (p - 1)))%Z).
    { rewrite <- (Z.sgn_abs m) at 1 || idtac. destruct (Z.sgn_spec m) as [[? Hs]|[[? Hs]|[? Hs]]]; rewrite Hs; lia. }
    rewrite Em at 1. rewrite mult_IZR. ring.
Qed.

Lemma nearest_error p rnd : (0 < p)%nat -> nearest p rnd -> forall x, Rabs (rnd x - x) <= / 2 ^ p * Rabs x.
Proof.
  intros Hp H x. destruct (H x) as (_ & HB). destruct (Req_dec x 0) as [->|Hx].
  - rewrite Rabs_R0, Rmult_0_r. eapply Rle_trans; [apply (HB 0)|rewrite Rminus_0_r, Rabs_R0; lra].
    exists 0%Z, 0%Z. split; [apply Z.pow_pos_nonneg; lia|simpl; ring].
  - destruct (exponent' p x Hx) as (Hy & _). fold (mant p x) in Hy.
    eapply Rle_trans; [apply (HB _ (representable_le p _ (expo' p x) Hp (mant_int p x Hp Hx)))|].
    pose proof (mant_eq p x) as Ex. set (y := mant p x) in *. set (e := expo' p x) in *. rewrite Ex. clear Ex.
    replace (IZR (near_int y) * powerRZ 2 e - y * powerRZ 2 e) with ((IZR (near_int y) - y) * powerRZ 2 e) by ring.
    rewrite !Rabs_mult. rewrite <- Rmult_assoc. apply Rmult_le_compat_r; [apply Rabs_pos|].
    eapply Rle_trans; [apply near_int_spec|].
    assert (H2 : powerRZ 2 (Z.of_nat p - 1) = 2 ^ p * / 2).
    { replace (2 ^ p) with (powerRZ 2 (Z.of_nat p)) by (symmetry; apply pow_powerRZ).
      replace (Z.of_nat p - 1)%Z with (Z.of_nat p + -1)%Z by lia. rewrite two_add. f_equal. simpl. field. }
    rewrite H2 in Hy. assert (0 < 2 ^ p) by (apply pow_lt; lra).
    apply (Rmult_le_compat_l (/ 2 ^ p)) in Hy; [|left; apply Rinv_0_lt_compat; auto].
    replace (/ 2 ^ p * (2 ^ p * / 2)) with (/ 2) in Hy by (field; lra). auto.
Qed.
Lemma nearest_exact p rnd x : nearest p rnd -> representable p x -> rnd x = x.
Proof.
  intros H Hx. destruct (H x) as (_ & HB). specialize (HB x Hx). replace (x - x) with 0 in HB by ring. rewrite Rabs_R0 in HB.
  pose proof (Rabs_pos (rnd x - x)). assert (E : Rabs (rnd x - x) = 0) by (apply Rle_antisym; auto).
  destruct (Req_dec (rnd x - x) 0) as [E'|N]; [lra|]. apply Rabs_no_R0 in N. contradiction.
Qed.

(** Rounding to nearest exists. *)
Lemma nearest_round_to p : (0 < p)%nat -> nearest p (round_to p).
Proof.
  intros Hp x. unfold round_to. destruct (Req_EM_T x 0) as [->|Hx].
  - split; [exists 0%Z, 0%Z; split; [apply Z.pow_pos_nonneg; lia|simpl; ring]|]. intros y _. rewrite Rminus_0_r, Rabs_R0. apply Rabs_pos.
  - split; [apply representable_le; auto; apply mant_int; auto|]. intros z (m & e' & Hm & ->).
    destruct (exponent' p x Hx) as (Hy & _). fold (mant p x) in Hy.
    pose proof (mant_eq p x) as Ex. set (y := mant p x) in *. set (e := expo' p x) in *.
    set (w := IZR m * powerRZ 2 (e' - e)).
    assert (Ez : IZR m * powerRZ 2 e' = w * powerRZ 2 e).
    { unfold w. rewrite Rmult_assoc, <- two_add. f_equal. f_equal. lia. }
    rewrite Ez. rewrite Ex. clear Ex Ez.
    replace (IZR (near_int y) * powerRZ 2 e - y * powerRZ 2 e) with ((IZR (near_int y) - y) * powerRZ 2 e) by ring.
    replace (w * powerRZ 2 e - y * powerRZ 2 e) with ((w - y) * powerRZ 2 e) by ring.
    rewrite !Rabs_mult. apply Rmult_le_compat_r; [apply Rabs_pos|].
    destruct (Z_le_gt_dec e e') as [He|He].
    + replace w with (IZR (m * 2 ^ Z.of_nat (Z.to_nat (e' - e)))); [apply near_int_best|].
      unfold w. rewrite mult_IZR, two_IZR. f_equal. f_equal. lia.
    + set (k := (2 ^ Z.of_nat (p - 1))%Z).
      assert (Hk : IZR k = powerRZ 2 (Z.of_nat p - 1)).
      { unfold k. rewrite two_IZR. f_equal. lia. }
      assert (Hw : Rabs w <= IZR k).
      { unfold w. rewrite Rabs_mult, (Rabs_right (powerRZ 2 _)) by (left; apply two_pos). rewrite <- abs_IZR.
        rewrite Hk. replace (Z.of_nat p - 1)%Z with (Z.of_nat p + -1)%Z by lia. rewrite two_add.
        apply Rmult_le_compat; [apply IZR_le; lia|left; apply two_pos| |apply two_le; lia].
        rewrite <- two_IZR. apply IZR_le. lia. }
      rewrite <- Hk in Hy. pose proof (near_int_best y k) as B1. pose proof (near_int_best y (- k)) as B2. rewrite opp_IZR in B2.
      assert (Hk0 : 0 <= IZR k) by (rewrite Hk; left; apply two_pos).
      assert (Hw' : - IZR k <= w <= IZR k) by (unfold Rabs in Hw; destruct (Rcase_abs w); lra).
      unfold Rabs in Hy. destruct (Rcase_abs y).
      * eapply Rle_trans; [exact B2|]. unfold Rabs. destruct (Rcase_abs (- IZR k - y)), (Rcase_abs (w - y)); lra.
      * eapply Rle_trans; [exact B1|]. unfold Rabs. destruct (Rcase_abs (IZR k - y)), (Rcase_abs (w - y)); lra.
Qed.
