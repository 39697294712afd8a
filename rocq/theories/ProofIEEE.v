(** Floating-point arithmetic with bounded exponents: rounding errors, and why a convex combination
    of finite numbers does not overflow. *)
From Coq Require Import Arith Lia List ZArith NArith Bool Reals Lra.
From Verif Require Import Prelude Scalar SpecSpline ModelBasis ModelSpline ModelRound ModelIEEE ProofRound.
Import ListNotations.
Local Open Scope R_scope.

Section Grid.
Context (F : format).
Notation p := (prec F).
Hypothesis HF : reasonable F.
Local Notation w := (powerRZ 2).
Local Notation P := (2 ^ Z.of_nat p)%Z.

Lemma Ppos : (0 < P)%Z.
Proof. apply Z.pow_pos_nonneg; lia. Qed.
Lemma P_R : IZR P = w (Z.of_nat p).
Proof. apply two_IZR. Qed.
Lemma pow_w : 2 ^ p = w (Z.of_nat p).
Proof. apply pow_powerRZ. Qed.
Lemma P_half : (P = 2 * 2 ^ Z.of_nat (p - 1))%Z.
Proof using HF. destruct HF as (H & _). rewrite <- Z.pow_succ_r by lia. f_equal. lia. Qed.
Lemma w_pos e : 0 < w e.
Proof. apply two_pos. Qed.
Lemma w_half e : w (e - 1) = w e / 2.
Proof. replace (e - 1)%Z with (e + -1)%Z by lia. rewrite two_add. simpl. field. Qed.
Lemma w_succ e : w (e + 1) = 2 * w e.
Proof. rewrite two_add. simpl. ring. Qed.
(** A multiple of 2^a is a multiple of 2^b for b <= a. *)
Lemma shift_down m a b : (b <= a)%Z -> IZR m * w a = IZR (m * 2 ^ Z.of_nat (Z.to_nat (a - b))) * w b.
Proof. intros H. rewrite mult_IZR, two_IZR, Rmult_assoc, <- two_add. do 2 f_equal. lia. Qed.

Lemma grid_0 : on_grid F 0.
Proof. exists 0%Z, (emin F). pose proof Ppos. split; [lia|]. split; [lia|ring]. Qed.
Lemma grid_opp x : on_grid F x -> on_grid F (- x).
Proof. intros (m & e & H1 & H2 & ->). exists (- m)%Z, e. rewrite Z.abs_opp, opp_IZR. split; [auto|]. split; [auto|ring]. Qed.
Lemma grid_le m e : (Z.abs m <= P)%Z -> (emin F <= e)%Z -> on_grid F (IZR m * w e).
Proof using HF.
  intros Hm He. destruct (Z.eq_dec (Z.abs m) P) as [E|N]; [|exists m, e; split; [lia|auto]].
  pose proof P_half as E2. assert (HP : (0 < 2 ^ Z.of_nat (p - 1))%Z) by (apply Z.pow_pos_nonneg; lia).
  exists (Z.sgn m * 2 ^ Z.of_nat (p - 1))%Z, (e + 1)%Z. split; [|split; [lia|]].
  - rewrite Z.abs_mul. destruct (Z.abs_spec (Z.sgn m)), (Z.sgn_spec m) as [[? ?]|[[? ?]|[? ?]]]; lia.
  - rewrite w_succ. assert (Em : m = (2 * (Z.sgn m * 2 ^ Z.of_nat (p - 1)))%Z).
    { destruct (Z.sgn_spec m) as [[? Hs]|[[? Hs]|[? Hs]]]; rewrite Hs; lia. }
    rewrite Em at 1. rewrite mult_IZR. ring.
Qed.
Lemma grid_w e : (emin F <= e)%Z -> on_grid F (w e).
Proof using HF. intros H. replace (w e) with (IZR 1 * w e) by ring. apply grid_le; auto. pose proof Ppos. simpl. lia. Qed.
Lemma grid_1 : on_grid F 1.
Proof using HF. change 1 with (w 0). apply grid_w. destruct HF as (_ & H & _). lia. Qed.
Lemma omega_eq : omega F = IZR (P - 1) * w (emax F).
Proof. unfold omega. rewrite minus_IZR, P_R, pow_w. reflexivity. Qed.
Lemma omega_top : omega F = w (emax F + Z.of_nat p) - w (emax F).
Proof. rewrite omega_eq, minus_IZR, P_R, two_add. ring. Qed.
Lemma omega_pos : 0 < omega F.
Proof using HF.
  rewrite omega_eq. apply Rmult_lt_0_compat; [|apply w_pos]. apply IZR_lt. pose proof P_half.
  assert (0 < 2 ^ Z.of_nat (p - 1))%Z by (apply Z.pow_pos_nonneg; lia). lia.
Qed.
Lemma grid_omega_shift k : (emin F <= emax F + k)%Z -> on_grid F (omega F * w k).
Proof using HF. intros H. rewrite omega_eq, Rmult_assoc, <- two_add. apply grid_le; auto. pose proof Ppos. lia. Qed.
Lemma grid_omega : on_grid F (omega F).
Proof using HF.
  replace (omega F) with (omega F * w 0) by (simpl; ring). apply grid_omega_shift. destruct HF as (? & ? & ?). lia.
Qed.
Lemma omega_1 : 1 <= omega F.
Proof using HF.
  rewrite omega_eq. destruct HF as (H1 & H2 & H3). pose proof P_half.
  assert (0 < 2 ^ Z.of_nat (p - 1))%Z by (apply Z.pow_pos_nonneg; lia).
  assert (1 <= IZR (P - 1)) by (apply IZR_le; lia). assert (1 <= w (emax F)) by (apply (two_le 0); lia). nra.
Qed.

(** No number of the format lies strictly between n 2^e and (n+1) 2^e when n has all digits. *)
Lemma gap n e r : (2 ^ Z.of_nat (p - 1) <= n)%Z -> on_grid F r -> IZR n * w e < r -> IZR (n + 1) * w e <= r.
Proof using HF.
  intros Hn (m & e' & Hm & _ & E) H. pose proof (w_pos e). destruct (Z_le_gt_dec e e') as [He|He].
  - rewrite (shift_down m e' e He) in E. set (k := (m * _)%Z) in *. clearbody k. subst r.
    apply Rmult_lt_reg_r in H; auto. apply lt_IZR in H. apply Rmult_le_compat_r; [lra|]. apply IZR_le. lia.
  - exfalso. assert (L : r <= IZR n * w e); [|lra]. rewrite E.
    apply Rle_trans with (IZR P * w (e - 1)).
    + apply Rle_trans with (IZR P * w e'); [apply Rmult_le_compat_r; [left; apply w_pos|apply IZR_le; lia]|].
      apply Rmult_le_compat_l; [apply IZR_le; pose proof Ppos; lia|apply two_le; lia].
    + rewrite w_half, P_half, mult_IZR. assert (IZR (2 ^ Z.of_nat (p - 1)) <= IZR n) by (apply IZR_le; auto). nra.
Qed.

(** Normalised form of a positive number. *)
Lemma normal x : on_grid F x -> 0 < x ->
  exists m e, (2 ^ Z.of_nat (p - 1) <= m < P)%Z /\ (emin F - (Z.of_nat p - 1) <= e)%Z /\ x = IZR m * w e.
Proof using HF.
  intros (m0 & e0 & Hm & He & E) Hx. destruct HF as (Hp & _).
  destruct (exponent x Hx) as (L1 & L2). set (k := expo x) in *. clearbody k. set (e := (k - (Z.of_nat p - 1))%Z).
  assert (M1 : (1 <= m0)%Z).
  { assert (0 < m0)%Z; [|lia]. apply (lt_IZR 0). rewrite E in Hx. pose proof (w_pos e0). nra. }
  assert (K1 : (emin F <= k)%Z).
  { destruct (Z_le_gt_dec (emin F) k); auto. exfalso. assert (L3 : w (k + 1) <= w e0) by (apply two_le; lia).
    assert (1 <= IZR m0) by (apply IZR_le; lia). pose proof (w_pos e0). nra. }
  assert (K2 : (e <= e0)%Z).
  { unfold e. destruct (Z_le_gt_dec (k - (Z.of_nat p - 1)) e0); auto. exfalso.
    assert (L3 : w (Z.of_nat p + e0) <= w k) by (apply two_le; lia). rewrite two_add, <- P_R in L3.
    assert (IZR m0 < IZR P) by (apply IZR_lt; lia). pose proof (w_pos e0). nra. }
  rewrite (shift_down m0 e0 e K2) in E. set (m := (m0 * _)%Z) in *. clearbody m. exists m, e.
  pose proof (w_pos e). split; [|split; [unfold e; lia|auto]]. split.
  - apply le_IZR. rewrite two_IZR. apply (Rmult_le_reg_r (w e)); auto. rewrite <- two_add, <- E.
    replace (Z.of_nat (p - 1) + e)%Z with k by (unfold e; lia). auto.
  - apply lt_IZR. rewrite P_R. apply (Rmult_lt_reg_r (w e)); auto. rewrite <- two_add, <- E.
    replace (Z.of_nat p + e)%Z with (k + 1)%Z by (unfold e; lia). auto.
Qed.

Context (rnd : R -> R).
Hypothesis HR : nearest_on_grid F rnd.

Lemma rnd_mono x y : x <= y -> rnd x <= rnd y.
Proof using HR.
  intros [H| ->]; [|lra]. destruct (Rle_dec (rnd x) (rnd y)) as [|N]; auto. exfalso.
  destruct (HR x) as (_ & B1). destruct (HR y) as (_ & B2). specialize (B1 (rnd y) (proj1 (HR y))).
  specialize (B2 (rnd x) (proj1 (HR x))). unfold Rabs in *.
  repeat match goal with |- context[Rcase_abs ?t] => destruct (Rcase_abs t) | H : context[Rcase_abs ?t] |- _ => destruct (Rcase_abs t) end; lra.
Qed.
Lemma rnd_id x : on_grid F x -> rnd x = x.
Proof using HR.
  intros Hx. destruct (HR x) as (_ & HB). specialize (HB x Hx). replace (x - x) with 0 in HB by ring. rewrite Rabs_R0 in HB.
  pose proof (Rabs_pos (rnd x - x)). unfold Rabs in *. destruct (Rcase_abs (rnd x - x)); lra.
Qed.
Lemma rnd_0 : rnd 0 = 0.
Proof using HR. apply rnd_id, grid_0. Qed.

(** Errors: relative when the result is not too small. *)
Lemma rnd_error_large x : x <> 0 -> (emin F <= expo' p x)%Z -> Rabs (rnd x - x) <= / 2 ^ p * Rabs x.
Proof using HF HR.
  intros Hx He. destruct HF as (Hp & _). destruct (HR x) as (_ & HB).
  destruct (exponent' p x Hx) as (Hy & _). fold (mant p x) in Hy.
  eapply Rle_trans; [apply (HB _ (grid_le _ (expo' p x) (mant_int p x Hp Hx) He))|].
  pose proof (mant_eq p x) as Ex. set (y := mant p x) in *. set (e := expo' p x) in *. rewrite Ex. clear Ex.
  replace (IZR (near_int y) * w e - y * w e) with ((IZR (near_int y) - y) * w e) by ring.
  rewrite !Rabs_mult. rewrite <- Rmult_assoc. apply Rmult_le_compat_r; [apply Rabs_pos|].
  eapply Rle_trans; [apply near_int_spec|].
  assert (H2 : w (Z.of_nat p - 1) = 2 ^ p * / 2) by (rewrite w_half, pow_w; field).
  rewrite H2 in Hy. assert (0 < 2 ^ p) by (apply pow_lt; lra).
  apply (Rmult_le_compat_l (/ 2 ^ p)) in Hy; [|left; apply Rinv_0_lt_compat; auto].
  replace (/ 2 ^ p * (2 ^ p * / 2)) with (/ 2) in Hy by (field; lra). auto.
Qed.
(** Below that the numbers are multiples of the finest spacing. *)
Lemma small_int x : x <> 0 -> (expo' p x < emin F)%Z -> forall k, IZR k * w (emin F) = x -> (Z.abs k < P)%Z.
Proof using HF.
  intros Hx He k E. destruct HF as (Hp & _). destruct (exponent' p x Hx) as (_ & Hy). set (e := expo' p x) in *.
  rewrite <- E in Hy. rewrite Rmult_assoc, <- two_add, Rabs_mult, (Rabs_right (w _)) in Hy by (left; apply w_pos).
  rewrite <- abs_IZR, <- P_R in Hy. apply lt_IZR. eapply Rle_lt_trans; [|exact Hy].
  rewrite <- (Rmult_1_r (IZR (Z.abs k))) at 1. apply Rmult_le_compat_l; [apply IZR_le; lia|]. apply (two_le 0). lia.
Qed.
Lemma rnd_error_tiny x : (Rabs x <= w (emin F + Z.of_nat p)) -> Rabs (rnd x - x) <= tiny F / 2.
Proof using HF HR.
  intros Hx. set (y := x * w (- emin F)). assert (Ex : x = y * w (emin F)).
  { unfold y. rewrite Rmult_assoc, (Rmult_comm (w (- _))), two_inv. ring. }
  assert (Hy : Rabs y <= IZR P).
  { unfold y. rewrite Rabs_mult, (Rabs_right (w _)) by (left; apply w_pos). rewrite P_R.
    apply (Rmult_le_compat_r (w (- emin F))) in Hx; [|left; apply w_pos]. rewrite <- two_add in Hx.
    replace (emin F + Z.of_nat p + - emin F)%Z with (Z.of_nat p) in Hx by lia. auto. }
  assert (HK : (Z.abs (near_int y) <= P)%Z).
  { pose proof (near_int_best y P) as B1. pose proof (near_int_best y (- P)) as B2. rewrite opp_IZR in B2.
    apply le_IZR. rewrite abs_IZR. unfold Rabs in *.
    repeat match goal with |- context[Rcase_abs ?t] => destruct (Rcase_abs t) | H : context[Rcase_abs ?t] |- _ => destruct (Rcase_abs t) end; lra. }
  destruct (HR x) as (_ & HB). eapply Rle_trans; [apply (HB _ (grid_le (near_int y) (emin F) HK ltac:(lia)))|].
  rewrite Ex at 1. replace (IZR (near_int y) * w (emin F) - y * w (emin F)) with ((IZR (near_int y) - y) * w (emin F)) by ring.
  rewrite Rabs_mult, (Rabs_right (w _)) by (left; apply w_pos). unfold tiny.
  pose proof (near_int_spec y). pose proof (w_pos (emin F)). nra.
Qed.
Lemma rnd_error x : Rabs (rnd x - x) <= / 2 ^ p * Rabs x + tiny F / 2.
Proof using HF HR.
  assert (T : 0 < tiny F) by apply w_pos. destruct (Req_dec x 0) as [->|Hx].
  - rewrite rnd_0, Rminus_0_r, Rabs_R0. lra.
  - assert (0 <= / 2 ^ p * Rabs x) by (apply Rmult_le_pos; [left; apply Rinv_0_lt_compat, pow_lt; lra|apply Rabs_pos]).
    destruct (Z_le_gt_dec (emin F) (expo' p x)) as [He|He]; [pose proof (rnd_error_large x Hx He); lra|].
    assert (K : Rabs (rnd x - x) <= tiny F / 2); [|lra]. apply rnd_error_tiny.
    destruct (exponent (Rabs x)) as (_ & L); [apply Rabs_pos_lt; auto|]. unfold expo' in He. left. eapply Rlt_le_trans; [exact L|].
    apply two_le. lia.
Qed.
(** Sums of numbers of the format have a relative error only. *)
Lemma rnd_error_sum x y : on_grid F x -> on_grid F y -> Rabs (rnd (x + y) - (x + y)) <= / 2 ^ p * Rabs (x + y).
Proof using HF HR.
  intros (m & e & Hm & He & ->) (m' & e' & Hm' & He' & ->). rewrite (shift_down m e (emin F)), (shift_down m' e' (emin F)) by auto.
  set (a := (m * _)%Z). set (b := (m' * _)%Z). rewrite <- Rmult_plus_distr_r, <- plus_IZR. set (k := (a + b)%Z). set (x := IZR k * _).
  assert (0 <= / 2 ^ p * Rabs x) by (apply Rmult_le_pos; [left; apply Rinv_0_lt_compat, pow_lt; lra|apply Rabs_pos]).
  destruct (Req_dec x 0) as [E|Hx]; [rewrite E, rnd_0, Rminus_0_r, Rabs_R0, Rmult_0_r; lra|].
  destruct (Z_le_gt_dec (emin F) (expo' p x)) as [Hl|Hl]; [apply rnd_error_large; auto|].
  rewrite rnd_id; [rewrite Rminus_diag_eq, Rabs_R0 by auto; auto|].
  exists k, (emin F). split; [apply (small_int x Hx ltac:(lia)); reflexivity|]. split; [lia|reflexivity].
Qed.

(** ** No overflow *)
Lemma omega_mul_lt x : on_grid F x -> 0 < x -> rnd (omega F * x) < w (emax F + Z.of_nat p) * x.
Proof using HF HR.
  intros Hg Hx. destruct (normal x Hg Hx) as (m & e & Hm & He & E). destruct HF as (Hp & H1 & H2).
  set (q := (emax F + Z.of_nat p)%Z) in *.
  assert (D : w q * x - omega F * x = w (emax F) * x) by (rewrite omega_top; fold q; ring).
  pose proof (w_pos (emax F)) as Pe. pose proof (w_pos e). assert (Pd : 0 < w (emax F) * x) by (apply Rmult_lt_0_compat; auto).
  assert (K : exists y, on_grid F y /\ Rabs (y - omega F * x) < w (emax F) * x).
  { destruct (Z.eq_dec m (2 ^ Z.of_nat (p - 1))) as [Em|Nm].
    - exists (omega F * x). split; [|rewrite Rminus_diag_eq, Rabs_R0 by auto; auto].
      rewrite E, Em, two_IZR, <- two_add. apply grid_omega_shift. lia.
    - exists (IZR (m - 1) * w (e + q)). split; [apply grid_le; lia|].
      replace (IZR (m - 1) * w (e + q) - omega F * x) with (- ((IZR P - IZR m) * (w (emax F) * w e))).
      + rewrite Rabs_Ropp. rewrite Rabs_right.
        * rewrite E. assert (A : IZR P < IZR m + IZR m); [|pose proof (Rmult_lt_0_compat _ _ Pe H); nra].
          rewrite <- plus_IZR. apply IZR_lt. rewrite P_half. lia.
        * apply Rle_ge. apply Rmult_le_pos; [|left; apply Rmult_lt_0_compat; auto].
          assert (IZR m <= IZR P) by (apply IZR_le; lia). lra.
      + rewrite E, omega_top. fold q. unfold q. rewrite !two_add, minus_IZR, P_R. ring. }
  destruct K as (y & Gy & Ly). destruct (Rlt_dec (rnd (omega F * x)) (w q * x)) as [|N]; auto. exfalso.
  destruct (HR (omega F * x)) as (_ & B). specialize (B y Gy).
  assert (w q * x - omega F * x <= rnd (omega F * x) - omega F * x) by lra.
  rewrite (Rabs_right (rnd (omega F * x) - omega F * x)) in B by lra. lra.
Qed.
Lemma omega_mul_down t : on_grid F t -> / 2 < t < 1 -> rnd (omega F * t) <= w (emax F + Z.of_nat p) * t - w (emax F).
Proof using HF HR.
  intros Hg Ht. pose proof (omega_mul_lt t Hg ltac:(lra)) as L. destruct (normal t Hg ltac:(lra)) as (m & e & Hm & He & E).
  destruct HF as (Hp & H1 & H2). pose proof (w_pos e).
  assert (Hmp : w (Z.of_nat p - 1) <= IZR m < w (Z.of_nat p)).
  { rewrite <- P_R. replace (Z.of_nat p - 1)%Z with (Z.of_nat (p - 1)) by lia. rewrite <- two_IZR.
    split; [apply IZR_le; lia|apply IZR_lt; lia]. }
  assert (Ee : e = (- Z.of_nat p)%Z).
  { destruct (Z_lt_le_dec e (- Z.of_nat p)) as [N|N].
    - exfalso. assert (w (Z.of_nat p + e) <= w (-1)) by (apply two_le; lia). rewrite two_add in H0. simpl (w (-1)) in H0. nra.
    - destruct (Z.eq_dec e (- Z.of_nat p)); auto. exfalso.
      assert (w 0 <= w (Z.of_nat p - 1 + e)) by (apply two_le; lia). rewrite two_add in H0. simpl (w 0) in H0. nra. }
  assert (Em : w (emax F + Z.of_nat p) * t = IZR m * w (emax F)).
  { rewrite E, Ee, two_add. pose proof (two_inv (Z.of_nat p)) as I. transitivity (IZR m * w (emax F) * (w (Z.of_nat p) * w (- Z.of_nat p))); [ring|rewrite I; ring]. }
  rewrite Em in *. destruct (Rle_dec (rnd (omega F * t)) (IZR m * w (emax F) - w (emax F))) as [|N]; auto. exfalso.
  assert (Nm : (2 ^ Z.of_nat (p - 1) <= m - 1)%Z).
  { destruct (Z.eq_dec m (2 ^ Z.of_nat (p - 1))) as [Ex|]; [|lia]. exfalso. rewrite E, Ex, two_IZR, Ee, <- two_add in Ht.
    replace (Z.of_nat (p - 1) + - Z.of_nat p)%Z with (-1)%Z in Ht by lia. simpl in Ht. lra. }
  pose proof (gap (m - 1) (emax F) (rnd (omega F * t)) Nm (proj1 (HR _)) ltac:(rewrite minus_IZR; lra)) as G.
  replace (m - 1 + 1)%Z with m in G by lia. lra.
Qed.
Lemma round_near_omega S : S < omega F + w (emax F) / 2 -> rnd S <= omega F.
Proof using HF HR.
  intros H. destruct (Rle_dec (rnd S) (omega F)) as [|N]; auto. exfalso.
  destruct (Rle_dec S (omega F)) as [L|L].
  - apply rnd_mono in L. rewrite (rnd_id (omega F)) in L by apply grid_omega. lra.
  - pose proof P_half as PH. assert (0 < 2 ^ Z.of_nat (p - 1))%Z by (apply Z.pow_pos_nonneg; lia).
    pose proof (gap (P - 1) (emax F) (rnd S) ltac:(lia) (proj1 (HR S)) ltac:(rewrite <- omega_eq; lra)) as G.
    replace (P - 1 + 1)%Z with P in G by lia. rewrite P_R, <- two_add in G. rewrite Z.add_comm in G.
    destruct (HR S) as (_ & B). specialize (B (omega F) grid_omega). pose proof omega_top as T.
    unfold Rabs in B. destruct (Rcase_abs (rnd S - S)), (Rcase_abs (omega F - S)); lra.
Qed.

(** [t] is a number nearest to 1 - x. *)
Definition near1 (x t : R) : Prop := on_grid F t /\ forall y, on_grid F y -> Rabs (t - (1 - x)) <= Rabs (y - (1 - x)).
Lemma near1_unit x t : 0 <= x <= 1 -> near1 x t -> 0 <= t <= 1.
Proof using HF.
  intros Hx (_ & B). pose proof (B 0 grid_0) as B0. pose proof (B 1 grid_1) as B1. unfold Rabs in *.
  repeat match goal with H : context[Rcase_abs ?t] |- _ => destruct (Rcase_abs t) end; lra.
Qed.
Lemma near1_exact x t : near1 x t -> on_grid F (1 - x) -> t = 1 - x.
Proof.
  intros (_ & B) G. specialize (B _ G). rewrite (Rminus_diag_eq (1 - x) (1 - x)), Rabs_R0 in B by auto. pose proof (Rabs_pos (t - (1 - x))).
  unfold Rabs in *. destruct (Rcase_abs (t - (1 - x))); lra.
Qed.
Lemma near1_error x t : 0 <= x <= 1 -> near1 x t -> Rabs (t - (1 - x)) <= w (- Z.of_nat p) / 2.
Proof using HF.
  intros Hx (_ & B). set (y := (1 - x) * w (Z.of_nat p)). set (k := near_int y).
  assert (Hy : 0 <= y <= IZR P).
  { rewrite P_R. unfold y. pose proof (w_pos (Z.of_nat p)). split; nra. }
  assert (Hk : (Z.abs k <= P)%Z).
  { pose proof (near_int_best y P) as B1. pose proof (near_int_best y (- P)) as B2. rewrite opp_IZR in B2. fold k in B1, B2.
    apply le_IZR. rewrite abs_IZR. unfold Rabs in *.
    repeat match goal with |- context[Rcase_abs ?t] => destruct (Rcase_abs t) | H : context[Rcase_abs ?t] |- _ => destruct (Rcase_abs t) end; lra. }
  eapply Rle_trans; [apply (B _ (grid_le k (- Z.of_nat p) Hk ltac:(destruct HF as (? & ? & ?); lia)))|].
  replace (1 - x) with (y * w (- Z.of_nat p)) by (unfold y; rewrite Rmult_assoc, two_inv; ring).
  replace (IZR k * w (- Z.of_nat p) - y * w (- Z.of_nat p)) with ((IZR k - y) * w (- Z.of_nat p)) by ring.
  rewrite Rabs_mult, (Rabs_right (w _)) by (left; apply w_pos). pose proof (near_int_spec y). fold k in H.
  pose proof (w_pos (- Z.of_nat p)). nra.
Qed.

Lemma top_small : w (emax F + Z.of_nat p) * (w (- Z.of_nat p) / 2) = w (emax F) / 2.
Proof. rewrite two_add. pose proof (two_inv (Z.of_nat p)) as I. transitivity (w (emax F) / 2 * (w (Z.of_nat p) * w (- Z.of_nat p))); [field|rewrite I; ring]. Qed.

Lemma combine_omega x t : on_grid F x -> 0 <= x <= 1 -> near1 x t ->
  rnd (rnd (omega F * t) + rnd (omega F * x)) <= omega F.
Proof using HF HR.
  intros Gx Hx Ht. pose proof (near1_unit x t Hx Ht) as Ht01. pose proof (near1_error x t Hx Ht) as HE. pose proof (proj1 Ht) as Gt.
  pose proof omega_top as OT. pose proof top_small as TS. set (Q := w (emax F + Z.of_nat p)) in *.
  pose proof (w_pos (emax F)) as Pe. assert (PQ : 0 < Q) by apply w_pos. pose proof omega_pos as PO.
  apply round_near_omega.
  assert (R1 : rnd (omega F * 1) = omega F) by (rewrite Rmult_1_r; apply rnd_id, grid_omega).
  assert (R0 : rnd (omega F * 0) = 0) by (rewrite Rmult_0_r; apply rnd_0).
  assert (Etx : Q * (t + x - 1) <= w (emax F) / 2).
  { rewrite <- TS. apply Rmult_le_compat_l; [lra|]. eapply Rle_trans; [|exact HE].
    replace (t - (1 - x)) with (t + x - 1) by ring. apply Rle_abs. }
  destruct (Rlt_dec (/ 2) t) as [T2|T2].
  - destruct (Req_dec x 0) as [->|Nx].
    + assert (t = 1) by (rewrite (near1_exact 0 t Ht); [ring|rewrite Rminus_0_r; apply grid_1]). subst t. lra.
    + pose proof (omega_mul_lt x Gx ltac:(lra)) as L. fold Q in L.
      destruct (Req_dec t 1) as [->|Nt]; [rewrite R1; nra|].
      pose proof (omega_mul_down t Gt ltac:(lra)) as L2. fold Q in L2. nra.
  - destruct (Rlt_dec (/ 2) x) as [X2|X2].
    + destruct (Req_dec x 1) as [->|N1].
      { assert (t = 0) by (rewrite (near1_exact 1 t Ht); [ring|rewrite Rminus_diag_eq by auto; apply grid_0]). subst t. lra. }
      assert (Et : t = 1 - x).
      { apply near1_exact; auto. destruct (normal x Gx ltac:(lra)) as (m & e & Hm & He & E). destruct HF as (Hp & H1 & H2). pose proof (w_pos e).
        assert (Hmp : w (Z.of_nat p - 1) <= IZR m < w (Z.of_nat p)).
        { rewrite <- P_R. replace (Z.of_nat p - 1)%Z with (Z.of_nat (p - 1)) by lia. rewrite <- two_IZR.
          split; [apply IZR_le; lia|apply IZR_lt; lia]. }
        assert (Ee : (- Z.of_nat p <= e)%Z).
        { destruct (Z_lt_le_dec e (- Z.of_nat p)) as [N|N]; auto.
          exfalso. assert (W : w (Z.of_nat p + e) <= w (-1)) by (apply two_le; lia). rewrite two_add in W. simpl (w (-1)) in W. nra. }
        rewrite (shift_down m e (- Z.of_nat p) Ee) in E. set (k := (m * _)%Z) in *. clearbody k.
        assert (E1 : 1 = IZR P * w (- Z.of_nat p)) by (rewrite P_R, two_inv; auto).
        assert (E2 : 1 - x = IZR (P - k) * w (- Z.of_nat p)) by (rewrite minus_IZR, E, E1 at 1; ring).
        rewrite E2. apply grid_le; [|lia]. pose proof (w_pos (- Z.of_nat p)) as Pw.
        assert (0 <= IZR (P - k) <= IZR P).
        { split; apply (Rmult_le_reg_r (w (- Z.of_nat p))); auto; rewrite <- E2; lra. }
        destruct H0 as (A1 & A2). apply le_IZR in A1, A2. lia. }
      pose proof (omega_mul_down x Gx ltac:(lra)) as L2. fold Q in L2.
      pose proof (omega_mul_lt t Gt ltac:(lra)) as L. fold Q in L. subst t. nra.
    + assert (RH : rnd (omega F * / 2) = omega F * / 2).
      { apply rnd_id. replace (/ 2) with (w (-1)) by (simpl; field). apply grid_omega_shift. destruct HF as (? & ? & ?). lia. }
      assert (rnd (omega F * t) <= omega F * / 2) by (rewrite <- RH; apply rnd_mono; nra).
      assert (rnd (omega F * x) <= omega F * / 2) by (rewrite <- RH; apply rnd_mono; nra). lra.
Qed.
Lemma combine_upper x t a b : on_grid F x -> 0 <= x <= 1 -> near1 x t -> a <= omega F -> b <= omega F ->
  rnd (rnd (t * a) + rnd (x * b)) <= omega F.
Proof using HF HR.
  intros Gx Hx Ht Ha Hb. pose proof (near1_unit x t Hx Ht). eapply Rle_trans; [|apply (combine_omega x t); auto].
  apply rnd_mono. apply Rplus_le_compat; apply rnd_mono; rewrite Rmult_comm; apply Rmult_le_compat_r; lra.
Qed.
End Grid.

(** The mirrored rounding. *)
Lemma mirror F rnd : nearest_on_grid F rnd -> nearest_on_grid F (fun x => - rnd (- x)).
Proof.
  intros H x. destruct (H (- x)) as (G & B). split; [apply grid_opp; auto|]. intros y Hy. specialize (B (- y) (grid_opp F y Hy)).
  replace (- rnd (- x) - x) with (- (rnd (- x) - - x)) by ring. replace (y - x) with (- (- y - - x)) by ring. rewrite !Rabs_Ropp. auto.
Qed.
Lemma combine_bound F rnd x a b : reasonable F -> nearest_on_grid F rnd -> on_grid F x -> 0 <= x <= 1 ->
  Rabs a <= omega F -> Rabs b <= omega F -> Rabs (rnd (rnd (rnd (1 - x) * a) + rnd (x * b))) <= omega F.
Proof.
  intros HF HR Gx Hx Ha Hb. assert (N1 : near1 F x (rnd (1 - x))) by apply HR.
  assert (- omega F <= a <= omega F) by (unfold Rabs in Ha; destruct (Rcase_abs a); lra).
  assert (- omega F <= b <= omega F) by (unfold Rabs in Hb; destruct (Rcase_abs b); lra).
  apply Rabs_le. split.
  - pose proof (combine_upper F HF _ (mirror F rnd HR) x (rnd (1 - x)) (- a) (- b) Gx Hx N1 ltac:(lra) ltac:(lra)) as K. cbv beta in K.
    replace (- (rnd (1 - x) * - a)) with (rnd (1 - x) * a) in K by ring. replace (- (x * - b)) with (x * b) in K by ring.
    replace (- (- rnd (rnd (1 - x) * a) + - rnd (x * b))) with (rnd (rnd (1 - x) * a) + rnd (x * b)) in K by ring. lra.
  - apply combine_upper; auto; lra.
Qed.

(** Rounding onto the grid exists. *)
Definition grid_round (F : format) (x : R) : R :=
  let e := Z.max (emin F) (expo' (prec F) x) in
  if Req_EM_T x 0 then 0 else IZR (near_int (x * powerRZ 2 (- e))) * powerRZ 2 e.
Lemma nearest_grid_round F : reasonable F -> nearest_on_grid F (grid_round F).
Proof.
  intros HF x. unfold grid_round. set (e := Z.max _ _). pose proof (proj1 HF) as Hp. destruct (Req_EM_T x 0) as [->|Hx].
  - split; [apply grid_0|]. intros. rewrite Rminus_0_r, Rabs_R0. apply Rabs_pos.
  - set (y := x * powerRZ 2 (- e)). assert (Ex : x = y * powerRZ 2 e).
    { unfold y. rewrite Rmult_assoc, (Rmult_comm (powerRZ 2 (- _))), two_inv. ring. }
    destruct (exponent' (prec F) x Hx) as (H1 & H2). set (e1 := expo' (prec F) x) in *.
    assert (Hy : Rabs y <= IZR (2 ^ Z.of_nat (prec F))).
    { rewrite two_IZR. left. eapply Rle_lt_trans; [|exact H2]. unfold y. rewrite !Rabs_mult. apply Rmult_le_compat_l; [apply Rabs_pos|].
      rewrite !Rabs_right by (left; apply two_pos). apply two_le. unfold e. lia. }
    set (k := (2 ^ Z.of_nat (prec F))%Z) in *. split.
    + apply grid_le; auto; [|unfold e; lia]. fold k.
      pose proof (near_int_best y k) as B1. pose proof (near_int_best y (- k)) as B2. rewrite opp_IZR in B2.
      apply le_IZR. rewrite abs_IZR. unfold Rabs in *. clear -B1 B2 Hy.
      repeat match goal with |- context[Rcase_abs ?t] => destruct (Rcase_abs t) | H : context[Rcase_abs ?t] |- _ => destruct (Rcase_abs t) end; lra.
    + intros z (m & e' & Hm & He & ->). rewrite Ex. set (v := IZR m * powerRZ 2 (e' - e)).
      assert (Ez : IZR m * powerRZ 2 e' = v * powerRZ 2 e).
      { unfold v. rewrite Rmult_assoc, <- two_add. f_equal. f_equal. lia. }
      rewrite Ez. replace (IZR (near_int y) * powerRZ 2 e - y * powerRZ 2 e) with ((IZR (near_int y) - y) * powerRZ 2 e) by ring.
      replace (v * powerRZ 2 e - y * powerRZ 2 e) with ((v - y) * powerRZ 2 e) by ring.
      rewrite !Rabs_mult. apply Rmult_le_compat_r; [apply Rabs_pos|].
      destruct (Z_le_gt_dec e e') as [Hl|Hl].
      * replace v with (IZR (m * 2 ^ Z.of_nat (Z.to_nat (e' - e)))); [apply near_int_best|].
        unfold v. rewrite mult_IZR, two_IZR. f_equal. f_equal. lia.
      * assert (Ee : e = e1) by (unfold e in *; lia).
        set (h := (2 ^ Z.of_nat (prec F - 1))%Z).
        assert (Hh : IZR h = powerRZ 2 (Z.of_nat (prec F) - 1)).
        { unfold h. rewrite two_IZR. f_equal. lia. }
        assert (Hw : Rabs v <= IZR h).
        { unfold v. rewrite Rabs_mult, (Rabs_right (powerRZ 2 _)) by (left; apply two_pos). rewrite <- abs_IZR.
          rewrite Hh. replace (Z.of_nat (prec F) - 1)%Z with (Z.of_nat (prec F) + -1)%Z by lia. rewrite two_add.
          apply Rmult_le_compat; [apply IZR_le; lia|left; apply two_pos| |apply two_le; lia].
          rewrite <- two_IZR. apply IZR_le. lia. }
        rewrite <- Ee in H1. fold y in H1. rewrite <- Hh in H1.
        pose proof (near_int_best y h) as B1. pose proof (near_int_best y (- h)) as B2. rewrite opp_IZR in B2.
        assert (Hk0 : 0 <= IZR h) by (rewrite Hh; left; apply two_pos).
        clear - Hw H1 B1 B2 Hk0. unfold Rabs in *.
        repeat match goal with |- context[Rcase_abs ?t] => destruct (Rcase_abs t) | H : context[Rcase_abs ?t] |- _ => destruct (Rcase_abs t) end; lra.
Qed.
