(** A bound on Bernstein polynomials: B(x)^2 * 2 e n x (1-x) <= 1. *)
From Coq Require Import Arith Lia List ZArith NArith Reals Lra.
From Verif Require Import Prelude Scalar Spec.
Import ListNotations.
Local Open Scope R_scope.

Lemma exp_pow x n : exp x ^ n = exp (INR n * x).
Proof.
  induction n; [simpl; rewrite Rmult_0_l; now rewrite exp_0|].
  rewrite S_INR. cbn [pow]. rewrite IHn, <- exp_plus. f_equal. ring.
Qed.
Lemma exp_ge x : 1 + x <= exp x.
Proof. destruct (Req_dec x 0) as [->|H]; [rewrite exp_0; lra|]. left. now apply exp_ineq1. Qed.

(** x^a (1-x)^b is largest at a/(a+b). *)
Lemma amgm a b x : (0 < a)%nat -> (0 < b)%nat -> 0 <= x <= 1 ->
  x ^ a * (1 - x) ^ b * INR (a + b) ^ (a + b) <= INR a ^ a * INR b ^ b.
Proof.
  intros Ha Hb Hx. assert (A : 0 < INR a) by (apply lt_0_INR; lia). assert (B : 0 < INR b) by (apply lt_0_INR; lia).
  set (s := INR (a + b)). assert (Es : s = INR a + INR b) by (apply plus_INR).
  rewrite (pow_add s).
  assert (P1 : (x * s / INR a) ^ a <= exp (x * s - INR a)).
  { replace (x * s - INR a) with (INR a * (x * s / INR a - 1)) by (field; lra). rewrite <- exp_pow.
    apply pow_incr. split. { apply Rmult_le_pos; [|left; now apply Rinv_0_lt_compat]. apply Rmult_le_pos; lra. }
    pose proof (exp_ge (x * s / INR a - 1)). lra. }
  assert (P2 : ((1 - x) * s / INR b) ^ b <= exp ((1 - x) * s - INR b)).
  { replace ((1 - x) * s - INR b) with (INR b * ((1 - x) * s / INR b - 1)) by (field; lra). rewrite <- exp_pow.
    apply pow_incr. split. { apply Rmult_le_pos; [|left; now apply Rinv_0_lt_compat]. apply Rmult_le_pos; lra. }
    pose proof (exp_ge ((1 - x) * s / INR b - 1)). lra. }
  assert (P : (x * s / INR a) ^ a * ((1 - x) * s / INR b) ^ b <= 1).
  { apply Rle_trans with (exp (x * s - INR a) * exp ((1 - x) * s - INR b)).
    2:{ rewrite <- exp_plus. replace (x * s - INR a + ((1 - x) * s - INR b)) with 0 by (rewrite Es; ring). rewrite exp_0. lra. }
    apply Rmult_le_compat; auto; apply pow_le; (apply Rmult_le_pos; [|left; now apply Rinv_0_lt_compat]; apply Rmult_le_pos; lra). }
  assert (Q : x ^ a * (1 - x) ^ b * (s ^ a * s ^ b) =
    (x * s / INR a) ^ a * ((1 - x) * s / INR b) ^ b * (INR a ^ a * INR b ^ b)).
  { replace (x ^ a * (1 - x) ^ b * (s ^ a * s ^ b)) with ((x ^ a * s ^ a) * ((1 - x) ^ b * s ^ b)) by ring.
    rewrite <- !Rpow_mult_distr.
    replace ((x * s / INR a) ^ a * ((1 - x) * s / INR b) ^ b * (INR a ^ a * INR b ^ b))
      with (((x * s / INR a) ^ a * INR a ^ a) * (((1 - x) * s / INR b) ^ b * INR b ^ b)) by ring.
    rewrite <- !Rpow_mult_distr. f_equal; f_equal; field; lra. }
  rewrite Q. rewrite <- (Rmult_1_l (INR a ^ a * INR b ^ b)) at 2. apply Rmult_le_compat_r; auto.
  apply Rmult_le_pos; apply pow_le; lra.
Qed.

Lemma D_add a c : derivable_pt_lim (fun u => u + a) c 1.
Proof.
  pose proof (derivable_pt_lim_plus (fun u => u) (fun _ => a) c 1 0 (derivable_pt_lim_id c) (derivable_pt_lim_const a c)) as H.
  rewrite Rplus_0_r in H. exact H.
Qed.
Lemma D_sub a c : derivable_pt_lim (fun u => a - u) c (-1).
Proof.
  pose proof (derivable_pt_lim_minus (fun _ => a) (fun u => u) c 0 1 (derivable_pt_lim_const a c) (derivable_pt_lim_id c)) as H.
  replace (0 - 1) with (-1) in H by ring. exact H.
Qed.

(** ln ((1+t)/(1-t)) >= 2t. *)
Lemma artanh_ge t : 0 <= t < 1 -> 2 * t <= ln (1 + t) - ln (1 - t).
Proof.
  intros Ht. destruct (Req_dec t 0) as [->|N]. { rewrite Rplus_0_r, Rminus_0_r, ln_1. lra. }
  set (f := fun u => ln (u + 1) - ln (1 - u) - 2 * u).
  destruct (MVT_cor2 f (fun u => / (1 + u) + / (1 - u) - 2) 0 t) as (c & E & Hc); [lra| |].
  { intros c Hc. unfold f.
    replace (/ (1 + c) + / (1 - c) - 2) with ((/ (c + 1) * 1 - / (1 - c) * (-1)) - 2 * 1) by (field; lra).
    apply derivable_pt_lim_minus; [apply derivable_pt_lim_minus|].
    - apply (derivable_pt_lim_comp (fun u => u + 1) ln); [|apply derivable_pt_lim_ln; lra].
      apply D_add.
    - apply (derivable_pt_lim_comp (fun u => 1 - u) ln); [|apply derivable_pt_lim_ln; lra].
      apply D_sub.
    - apply derivable_pt_lim_scal. apply derivable_pt_lim_id. }
  assert (Z0 : f 0 = 0). { unfold f. rewrite Rplus_0_l, Rminus_0_r, ln_1. ring. }
  assert (D : 0 <= / (1 + c) + / (1 - c) - 2).
  { replace (/ (1 + c) + / (1 - c) - 2) with (2 * (c * c) / ((1 + c) * (1 - c))) by (field; lra).
    apply Rmult_le_pos; [nra|]. left. apply Rinv_0_lt_compat. nra. }
  assert (0 <= f t) by (rewrite Z0 in E; nra). unfold f in *. rewrite (Rplus_comm t) in *. lra.
Qed.

Definition phi u := (u + 1) * ln (u + 1) - (u - 1) * ln (u - 1) - 2 * ln u.
Lemma phi_mono u v : 1 < u -> u <= v -> phi u <= phi v.
Proof.
  intros Hu [Huv| ->]; [|lra].
  destruct (MVT_cor2 phi (fun u => ln (u + 1) - ln (u - 1) - 2 * / u) u v Huv) as (c & E & Hc).
  { intros c Hc. unfold phi.
    replace (ln (c + 1) - ln (c - 1) - 2 * / c)
      with ((1 * ln (c + 1) + (c + 1) * (/ (c + 1) * 1)) - (1 * ln (c - 1) + (c - 1) * (/ (c - 1) * 1)) - 2 * / c) by (field; lra).
    assert (I1 : derivable_pt_lim (fun u => u + 1) c 1).
    { apply D_add. }
    assert (I2 : derivable_pt_lim (fun u => u - 1) c 1).
    { apply (D_add (- (1))). }
    apply derivable_pt_lim_minus; [apply derivable_pt_lim_minus|].
    - apply (derivable_pt_lim_mult (fun u => u + 1) (fun u => ln (u + 1))); auto.
      apply (derivable_pt_lim_comp (fun u => u + 1) ln); auto. apply derivable_pt_lim_ln. lra.
    - apply (derivable_pt_lim_mult (fun u => u - 1) (fun u => ln (u - 1))); auto.
      apply (derivable_pt_lim_comp (fun u => u - 1) ln); auto. apply derivable_pt_lim_ln. lra.
    - apply derivable_pt_lim_scal. apply derivable_pt_lim_ln. lra. }
  assert (Ic : 0 < / c < 1). { split; [apply Rinv_0_lt_compat; lra|]. rewrite <- Rinv_1. apply Rinv_lt_contravar; lra. }
  pose proof (artanh_ge (/ c) ltac:(lra)) as A.
  assert (L1 : ln (c + 1) = ln c + ln (1 + / c)). { rewrite <- ln_mult by lra. f_equal. field. lra. }
  assert (L2 : ln (c - 1) = ln c + ln (1 - / c)). { rewrite <- ln_mult by lra. f_equal. field. lra. }
  assert (0 <= phi v - phi u) by (rewrite E; apply Rmult_le_pos; lra). lra.
Qed.

(** g(k) = (2k+1)^(2k+1) / (k!)^2 is logarithmically convex. *)
Definition lg (k : nat) : R := INR (2 * k + 1) * ln (INR (2 * k + 1)) - 2 * ln (INR (fact k)).
Lemma lg_step k : lg (S k) - lg k = phi (INR (2 * k + 2)) + 2 * ln 2.
Proof.
  unfold lg, phi. set (u := INR (2 * k + 2)). assert (Hu : 0 < u) by (apply lt_0_INR; lia).
  assert (E1 : INR (2 * S k + 1) = u + 1).
  { unfold u. replace (2 * S k + 1)%nat with (S (2 * k + 2)) by lia. now rewrite S_INR. }
  assert (E2 : INR (2 * k + 1) = u - 1).
  { unfold u. replace (2 * k + 2)%nat with (S (2 * k + 1)) by lia. rewrite S_INR. ring. }
  assert (E3 : INR (S k) = u * / 2).
  { unfold u. replace (2 * k + 2)%nat with (2 * S k)%nat by lia. rewrite mult_INR. change (INR 2) with 2. field. }
  rewrite fact_simpl, mult_INR, ln_mult by (apply lt_0_INR; try lia; apply lt_O_fact).
  rewrite E1, E2, E3, (ln_mult u (/ 2)), ln_Rinv by lra. ring.
Qed.
Lemma lg_convex k m : lg k + lg m <= lg 0 + lg (k + m).
Proof.
  induction k; [simpl; lra|].
  assert (lg (S k) - lg k <= lg (S k + m) - lg (k + m)); [|lra].
  cbn [Nat.add]. rewrite !lg_step. apply Rplus_le_compat_r. apply phi_mono.
  - replace 1 with (INR 1) by reflexivity. apply lt_INR. lia.
  - apply le_INR. lia.
Qed.
Lemma lg_exp k : INR (2 * k + 1) ^ (2 * k + 1) = exp (lg k) * INR (fact k) ^ 2.
Proof.
  unfold lg. assert (P : 0 < INR (2 * k + 1)) by (apply lt_0_INR; lia).
  assert (Q : 0 < INR (fact k)) by (apply lt_0_INR, lt_O_fact).
  rewrite <- (exp_ln (INR (2 * k + 1)) P) at 1. rewrite exp_pow.
  rewrite <- (exp_ln (INR (fact k)) Q) at 2. rewrite exp_pow, <- exp_plus. f_equal. cbn [INR]. ring.
Qed.
Lemma tail_bound n : (0 < n)%nat ->
  2 * exp 1 * INR n * INR (2 * n + 1) ^ (2 * n + 1) <= INR (2 * n + 2) ^ (2 * n + 2).
Proof.
  intros Hn. set (m := INR (2 * n + 2)). assert (Hm : 0 < m) by (apply lt_0_INR; lia).
  assert (E1 : 2 * INR n = m - 2). { unfold m. rewrite plus_INR, mult_INR. cbn [INR]. lra. }
  assert (E2 : INR (2 * n + 1) = m - 1). { unfold m. rewrite !plus_INR, mult_INR. cbn [INR]. lra. }
  rewrite E2. assert (Hm1 : 0 < m - 1) by (rewrite <- E2; apply lt_0_INR; lia).
  assert (Hm2 : 0 < m - 2) by (rewrite <- E1; assert (0 < INR n) by (apply lt_0_INR; lia); lra).
  assert (P1 : m - 2 <= m * exp (- (2 / m))).
  { pose proof (exp_ge (- (2 / m))). replace (m - 2) with (m * (1 + - (2 / m))) by (field; lra). apply Rmult_le_compat_l; lra. }
  assert (P2 : m - 1 <= m * exp (- (1 / m))).
  { pose proof (exp_ge (- (1 / m))). replace (m - 1) with (m * (1 + - (1 / m))) by (field; lra). apply Rmult_le_compat_l; lra. }
  assert (P3 : (m - 1) ^ (2 * n + 1) <= m ^ (2 * n + 1) * exp (- (INR (2 * n + 1) * (1 / m)))).
  { replace (- (INR (2 * n + 1) * (1 / m))) with (INR (2 * n + 1) * (- (1 / m))) by ring.
    rewrite <- exp_pow, <- Rpow_mult_distr. apply pow_incr. lra. }
  replace (2 * exp 1 * INR n * (m - 1) ^ (2 * n + 1)) with (exp 1 * ((m - 2) * (m - 1) ^ (2 * n + 1))) by (rewrite <- E1; ring).
  replace (2 * n + 2)%nat with (S (2 * n + 1)) by lia. cbn [pow].
  apply Rle_trans with (exp 1 * ((m * exp (- (2 / m))) * (m ^ (2 * n + 1) * exp (- (INR (2 * n + 1) * (1 / m)))))).
  - apply Rmult_le_compat_l; [left; apply exp_pos|]. apply Rmult_le_compat; auto; [lra|]. apply pow_le. lra.
  - replace (exp 1 * ((m * exp (- (2 / m))) * (m ^ (2 * n + 1) * exp (- (INR (2 * n + 1) * (1 / m))))))
      with ((m * m ^ (2 * n + 1)) * (exp 1 * exp (- (2 / m)) * exp (- (INR (2 * n + 1) * (1 / m))))) by ring.
    rewrite <- !exp_plus. rewrite <- (Rmult_1_r (m * m ^ (2 * n + 1))) at 2.
    apply Rmult_le_compat_l. { apply Rmult_le_pos; [lra|apply pow_le; lra]. }
    apply Rle_trans with (exp 0); [|rewrite exp_0; lra]. rewrite E2. replace (1 + - (2 / m) + - ((m - 1) * (1 / m))) with (- (1 / m)) by (field; lra).
    assert (0 < 1 / m) by (apply Rdiv_lt_0_compat; lra).
    destruct (Req_dec (- (1 / m)) 0); [lra|]. left. apply exp_increasing. lra.
Qed.

(** The binomial coefficients of the standard library. *)
Lemma binom_C n k : (k <= n)%nat -> IZR (Z.of_N (binom n k)) * (INR (fact k) * INR (fact (n - k))) = INR (fact n).
Proof.
  revert k. induction n; intros k Hk.
  - destruct k; [|lia]. simpl. ring.
  - destruct k.
    + assert (E : binom (S n) 0 = 1%N) by reflexivity. rewrite E. rewrite Nat.sub_0_r. cbn [fact Nat.mul Nat.add INR Z.of_N]. 
      change (INR (fact 0)) with 1. ring.
    + cbn [binom]. rewrite N2Z.inj_add, plus_IZR. cbn [Nat.sub].
      destruct (Nat.eq_dec k n) as [->|Hn].
      * assert (B : binom n (S n) = 0%N).
        { clear. assert (H : forall a b, (a < b)%nat -> binom a b = 0%N).
          { induction a; intros [|b] H; try lia; auto. cbn [binom]. rewrite !IHa by lia. auto. } apply H. lia. }
        rewrite B, Nat.sub_diag. pose proof (IHn n ltac:(lia)) as I. rewrite Nat.sub_diag in I.
        rewrite !fact_simpl, !mult_INR. cbn [Z.of_N].
        transitivity (INR (S n) * (IZR (Z.of_N (binom n n)) * (INR (fact n) * INR (fact 0)))); [ring|now rewrite I].
      * pose proof (IHn k ltac:(lia)) as I1. pose proof (IHn (S k) ltac:(lia)) as I2.
        replace (n - k)%nat with (S (n - S k)) in * by lia.
        set (b1 := IZR (Z.of_N (binom n k))) in *. set (b2 := IZR (Z.of_N (binom n (S k)))) in *.
        assert (F1 : INR (fact (S k)) = INR (S k) * INR (fact k)) by (rewrite fact_simpl; apply mult_INR).
        assert (F2 : INR (fact (S (n - S k))) = INR (S (n - S k)) * INR (fact (n - S k))) by (rewrite fact_simpl; apply mult_INR).
        rewrite (fact_simpl n), mult_INR.
        replace (INR (S n)) with (INR (S k) + INR (S (n - S k))) by (rewrite <- plus_INR; f_equal; lia).
        transitivity (INR (S k) * (b1 * (INR (fact k) * INR (fact (S (n - S k))))) +
          INR (S (n - S k)) * (b2 * (INR (fact (S k)) * INR (fact (n - S k))))).
        { rewrite F1, F2. ring. } rewrite I1, I2. ring.
Qed.

Lemma bernstein_envelope n k x : (0 < n)%nat -> (k <= n)%nat -> 0 <= x <= 1 ->
  bernstein n k x ^ 2 * (2 * exp 1 * INR n * x * (1 - x)) <= 1.
Proof.
  intros Hn Hk Hx. unfold bernstein. cbn [smul ssub s1 sofN SOps_R].
  assert (SP : forall (y : R) j, spow y j = y ^ j). { induction j; [reflexivity|]. cbn [spow]. rewrite IHj. reflexivity. }
  rewrite !SP. change R1 with 1. set (b := IZR (Z.of_N (binom n k))).
  pose proof (binom_C n k Hk) as BC. fold b in BC. set (l := (n - k)%nat) in *.
  pose proof (amgm (2 * k + 1) (2 * l + 1) x ltac:(lia) ltac:(lia) Hx) as A.
  replace (2 * k + 1 + (2 * l + 1))%nat with (2 * n + 2)%nat in A by lia.
  replace ((b * x ^ k * (1 - x) ^ l) ^ 2 * (2 * exp 1 * INR n * x * (1 - x)))
    with (2 * exp 1 * INR n * b ^ 2 * (x ^ (2 * k + 1) * (1 - x) ^ (2 * l + 1))).
  2:{ rewrite !pow_add, !(Nat.mul_comm 2), !pow_mult. ring. }
  set (m := INR (2 * n + 2) ^ (2 * n + 2)) in *. assert (Hm : 0 < m) by (apply pow_lt, lt_0_INR; lia).
  assert (Hn0 : 0 < INR n) by (apply lt_0_INR; lia). pose proof (exp_pos 1) as He.
  apply Rmult_le_reg_r with m; [exact Hm|]. rewrite Rmult_1_l.
  apply Rle_trans with (2 * exp 1 * INR n * b ^ 2 * (INR (2 * k + 1) ^ (2 * k + 1) * INR (2 * l + 1) ^ (2 * l + 1))).
  { rewrite Rmult_assoc. apply Rmult_le_compat_l; auto. assert (0 <= b ^ 2) by (apply pow2_ge_0).
    apply Rmult_le_pos; auto. apply Rmult_le_pos; lra. }
  apply Rle_trans with (2 * exp 1 * INR n * INR (2 * n + 1) ^ (2 * n + 1)); [|apply tail_bound; auto].
  rewrite !Rmult_assoc. do 3 (apply Rmult_le_compat_l; [lra|]).
  rewrite !lg_exp. pose proof (lg_convex k l) as C. replace (k + l)%nat with n in C by lia.
  replace (b ^ 2 * (exp (lg k) * INR (fact k) ^ 2 * (exp (lg l) * INR (fact l) ^ 2)))
    with (exp (lg k) * exp (lg l) * (b * (INR (fact k) * INR (fact l))) ^ 2) by ring.
  rewrite BC, <- exp_plus. apply Rmult_le_compat_r; [apply pow2_ge_0|].
  assert (L0 : lg 0 = 0). { unfold lg. cbn. rewrite ln_1. ring. }
  destruct (Req_dec (lg k + lg l) (lg n)) as [->|N]; [lra|]. left. apply exp_increasing. lra.
Qed.
