(** Claims about the assertions of the project's unit tests. *)
From Coq Require Import Arith Lia List ZArith NArith Bool Reals Lra.
From Verif Require Import Prelude Scalar Spec SpecSpline SpecReal ModelBasis ModelSpline Sums ProofBasis ClaimsA ProofDeriv ProofReal ClaimsF
  ProofEnvelope.
Import ListNotations.
Local Open Scope nat_scope.

(** tests/bernstein_polynomials/bernstein_polynomial_test.cpp:51-53 *)
Lemma c79_envelope_refuted : exists (degree i : nat) (x : R) (r : list R), degree < 30 /\ i <= degree /\ (0 < x < 1)%R /\
  BernsteinEvaluate 30 degree x = Ok r /\ (nth i r 0 > 1 / sqrt (2 * PI * INR degree * x * (1 - x)))%R.
Proof.
  destruct (c05_bernstein_evaluate R _ _ 30 8 (1 / 18)%R) as (r & E & L & H); [lia|lia|].
  exists 8, 0, (1 / 18)%R, r. do 2 (split; [lia|]). split; [lra|]. split; [exact E|].
  change 0%R with (s0 (S := R)). rewrite (H 0) by lia.
  assert (B : binom 8 0 = 1%N) by reflexivity. rewrite B. cbn [smul ssub s1 sofN SOps_R spow Nat.sub Z.of_N].
  change R1 with 1%R. rewrite Rmult_1_l. change (INR 8) with (1 + 1 + 1 + 1 + 1 + 1 + 1 + 1)%R.
  pose proof PI2_3_2 as HPI.
  set (y := (2 * PI * (1 + 1 + 1 + 1 + 1 + 1 + 1 + 1) * (1 / 18) * (1 - 1 / 18))%R).
  assert (Hy : (816 / 324 <= y)%R) by (unfold y; lra).
  set (b := (1 * _)%R). assert (Eb : (b = (17 / 18) ^ 8)%R) by (unfold b; field). rewrite Eb.
  assert (Hb : (0 < (17 / 18) ^ 8)%R) by (apply pow_lt; lra).
  assert (Hs : (/ (17 / 18) ^ 8 < sqrt y)%R).
  { rewrite <- (sqrt_square (/ (17 / 18) ^ 8)) by (left; now apply Rinv_0_lt_compat).
    apply sqrt_lt_1; [apply Rle_0_sqr|lra|]. apply Rlt_le_trans with (816 / 324)%R; auto. lra. }
  assert (0 < / (17 / 18) ^ 8)%R by (now apply Rinv_0_lt_compat).
  unfold Rgt. replace (1 / sqrt y)%R with (/ sqrt y)%R by (unfold Rdiv; ring). rewrite <- (Rinv_inv ((17 / 18) ^ 8)).
  apply Rinv_lt_contravar; auto. apply Rmult_lt_0_compat; lra.
Qed.
Lemma c79_envelope_partial : forall (MAXB degree : nat) (x : R), MAXB <= 68 -> 0 < degree < MAXB -> (0 < x < 1)%R ->
  exists r, BernsteinEvaluate MAXB degree x = Ok r /\
    forall i, i <= degree -> (nth i r 0 <= 1 / sqrt (2 * exp 1 * INR degree * x * (1 - x)))%R.
Proof.
  intros MAXB n x HM Hn Hx. destruct (c05_bernstein_evaluate R _ _ MAXB n x) as (r & E & L & H); [lia|lia|].
  exists r. split; [exact E|]. intros i Hi. change 0%R with (s0 (S := R)). rewrite (H i Hi).
  pose proof (bernstein_envelope n i x ltac:(lia) Hi ltac:(lra)) as B. unfold bernstein in B.
  replace (smul (sofN (binom n i)) (smul (spow x i) (spow (ssub s1 x) (n - i)))) with
    (smul (smul (sofN (binom n i)) (spow x i)) (spow (ssub s1 x) (n - i))) by (cbn [smul SOps_R]; ring).
  set (b := smul (smul (sofN (binom n i)) (spow x i)) (spow (ssub s1 x) (n - i))) in *.
  set (y := (2 * exp 1 * INR n * x * (1 - x))%R) in *. clearbody b.
  assert (Hy : (0 < y)%R).
  { unfold y. repeat apply Rmult_lt_0_compat; try lra; [apply exp_pos|apply lt_0_INR; lia]. }
  assert (Hs : (0 < sqrt y)%R) by (apply sqrt_lt_R0; auto).
  unfold Rdiv. rewrite Rmult_1_l. apply Rmult_le_reg_r with (sqrt y); auto. rewrite Rinv_l by lra.
  destruct (Rle_dec (b * sqrt y) 1) as [|N]; [auto|exfalso].
  assert (1 < (b * sqrt y) * (b * sqrt y))%R by nra.
  replace ((b * sqrt y) * (b * sqrt y))%R with (b ^ 2 * (sqrt y * sqrt y))%R in * by ring. rewrite sqrt_sqrt in * by lra. lra.
Qed.

(** tests/bernstein_polynomials/bernstein_polynomial_test.cpp:73-92 *)
Lemma sum_dbern k p (x : R) : ssum (S p) (fun i => dbern k p i x) = (if k =? 0 then 1 else 0)%R.
Proof.
  revert x. induction k; intros x.
  - rewrite (ssum_ext (S p) _ (fun i => bernstein p i x)) by (intros; apply dbern_0). exact (bernstein_sum p x).
  - cbn [Nat.eqb]. eapply uniqueness_limite; [|apply (derivable_pt_lim_const (if k =? 0 then 1 else 0)%R x)].
    eapply dlim_ext; [exact IHk|reflexivity|]. apply (dlim_ssum (S p) (fun i => dbern k p i)).
    intros i Hi. apply dlim_dbern.
Qed.
Lemma fold_seq (f : nat -> R) n : fold_right Rplus 0%R (map f (seq 0 n)) = ssum n f.
Proof.
  induction n; [reflexivity|]. rewrite seq_S, map_app, fold_right_app. cbn [map fold_right Nat.add ssum sadd SOps_R]. rewrite <- IHn.
  assert (G : forall l a, fold_right Rplus a l = (fold_right Rplus 0 l + a)%R).
  { induction l; intros b; cbn [fold_right]; [ring|]. rewrite IHl. ring. } rewrite G. ring.
Qed.
Lemma c79_sums : forall (MAXB degree : nat) (x : R), MAXB <= 68 -> degree < MAXB ->
  (exists r, BernsteinEvaluate MAXB degree x = Ok r /\ fold_right Rplus 0%R r = 1%R) /\
  forall deriv, 0 < deriv -> exists r, BernsteinEvaluateDerivative MAXB degree x deriv = Ok r /\ fold_right Rplus 0%R r = 0%R.
Proof.
  intros MAXB p x HM Hp. split.
  - rewrite (BernsteinEvaluate_ok MAXB HM) by auto. eexists; split; [reflexivity|]. rewrite fold_seq. exact (bernstein_sum p x).
  - intros k Hk. rewrite (BernsteinEvaluateDerivative_ok MAXB HM) by auto. eexists; split; [reflexivity|]. rewrite fold_seq, sum_dbern.
    destruct k; [lia|reflexivity].
Qed.

(** tests/bernstein_polynomials/bernstein_polynomial_test.cpp:41-49, 95-117 *)
Lemma c79_quadratic : forall (MAXB : nat) (x : R), MAXB <= 68 -> 2 < MAXB ->
  BernsteinEvaluateDerivative MAXB 2 x 0 = Ok [1 - 2 * x + x * x; 2 * x - 2 * x * x; x * x]%R /\
  BernsteinEvaluateDerivative MAXB 2 x 1 = Ok [-2 + 2 * x; 2 - 4 * x; 2 * x]%R /\
  BernsteinEvaluateDerivative MAXB 2 x 2 = Ok [2; -4; 2]%R.
Proof.
  intros MAXB x HM H2. rewrite !(BernsteinEvaluateDerivative_ok MAXB HM) by auto. cbn [map seq].
  repeat split; (do 2 f_equal; [|f_equal; [|f_equal]]); cbn; unfold bernstein, bshift; cbn; ring.
Qed.
