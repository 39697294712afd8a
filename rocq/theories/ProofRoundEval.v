(** Error propagation through the evaluation functions. *)
From Coq Require Import Arith Lia List ZArith NArith Bool Reals Lra Psatz.
From Verif Require Import Prelude Scalar Spec SpecSpline Sums Coord ModelBasis ModelSpline ModelRational SpecRational
  ModelRound SpecRound ProofIndex ProofBasis ProofEval ProofParam ProofCasteljau ProofRound.
Import ListNotations.
Local Open Scope R_scope.

(** [y] approximates [x] with an error of at most [(g - 1) A], where [A] bounds [x]. *)
Definition Er (g y x A : R) : Prop := Rabs (y - x) <= (g - 1) * A /\ Rabs x <= A.

Lemma Er_pos g y x A : Er g y x A -> 0 <= A.
Proof. intros (_ & H). pose proof (Rabs_pos x). lra. Qed.
Lemma Er_abs g y x A : Er g y x A -> Rabs y <= g * A.
Proof.
  intros (H1 & H2). replace y with ((y - x) + x) by ring. eapply Rle_trans; [apply Rabs_triang|]. lra.
Qed.
Lemma Er_exact x : Er 1 x x (Rabs x).
Proof. split; [|lra]. replace (x - x) with 0 by ring. rewrite Rabs_R0. lra. Qed.
Lemma Er_exact_pos x : 0 <= x -> Er 1 x x x.
Proof. intros. rewrite <- (Rabs_right x) at 3 by lra. apply Er_exact. Qed.
Lemma Er_le g h y x A : g <= h -> Er g y x A -> Er h y x A.
Proof. intros L H. pose proof (Er_pos _ _ _ _ H). destruct H as (H1 & H2). split; auto. nra. Qed.
Lemma Er_add g a b x y A B : Er g a x A -> Er g b y B -> Er g (a + b) (x + y) (A + B).
Proof.
  intros (H1 & H2) (H3 & H4). split.
  - replace (a + b - (x + y)) with ((a - x) + (b - y)) by ring. eapply Rle_trans; [apply Rabs_triang|]. lra.
  - eapply Rle_trans; [apply Rabs_triang|]. lra.
Qed.
Lemma Er_mul g h a b x y A B : 1 <= g -> 1 <= h -> Er g a x A -> Er h b y B -> Er (g * h) (a * b) (x * y) (A * B).
Proof.
  intros Hg Hh H K. pose proof (Er_abs _ _ _ _ K) as Kb. pose proof (Er_pos _ _ _ _ H) as PA. pose proof (Er_pos _ _ _ _ K) as PB.
  destruct H as (H1 & H2), K as (K1 & K2). split.
  - replace (a * b - x * y) with ((a - x) * b + x * (b - y)) by ring. eapply Rle_trans; [apply Rabs_triang|]. rewrite !Rabs_mult.
    apply Rle_trans with ((g - 1) * A * (h * B) + A * ((h - 1) * B)); [|right; ring].
    apply Rplus_le_compat; apply Rmult_le_compat; auto; apply Rabs_pos.
  - rewrite Rabs_mult. apply Rmult_le_compat; auto; apply Rabs_pos.
Qed.

Section Err.
Context (rnd : R -> R) (u : R) (Hu : 0 <= u) (Hr : forall x, Rabs (rnd x - x) <= u * Rabs x).

Lemma Er_rnd g y x A : Er g y x A -> Er (g * (1 + u)) (rnd y) x A.
Proof using Hu Hr.
  intros H. pose proof (Er_abs _ _ _ _ H). destruct H as (H1 & H2). split; auto.
  replace (rnd y - x) with ((rnd y - y) + (y - x)) by ring. eapply Rle_trans; [apply Rabs_triang|].
  specialize (Hr y). assert (u * Rabs y <= u * (g * A)) by (apply Rmult_le_compat_l; auto). lra.
Qed.
Lemma u_pow n : 1 <= (1 + u) ^ n.
Proof using Hu. apply pow_R1_Rle. lra. Qed.
Lemma u_pow_le m n : (m <= n)%nat -> (1 + u) ^ m <= (1 + u) ^ n.
Proof using Hu. intros. apply Rle_pow; auto. lra. Qed.

Notation ornd := (SOps_rnd rnd).
Notation dcr := (dc (o := ornd) (ov := VOps_scalar R (o := ornd))).
Notation dctr := (dct (o := ornd) (ov := VOps_scalar R (o := ornd))).

Lemma dc_err x f f' F r : 0 <= x <= 1 -> forall k j, (forall i, (j <= i <= j + r)%nat -> Er ((1 + u) ^ k) (f' i) (f i) (F i)) ->
  Er ((1 + u) ^ (k + 3 * r)) (dcr x f' r j) (dc x f r j) (dc x F r j).
Proof using Hu Hr.
  intros Hx k. induction r; intros j H; [rewrite Nat.mul_0_r, Nat.add_0_r; apply H; lia|].
  cbn [dc vadd vscale VOps_scalar sadd smul ssub s1 SOps_rnd SOps_R]. replace (k + 3 * S r)%nat with (k + 3 * r + 1 + 1 + 1)%nat by lia.
  set (m := (k + 3 * r)%nat) in *. rewrite (pow_add _ _ 1), pow_1.
  assert (Ea := IHr j ltac:(intros; apply H; lia)). assert (Eb := IHr (S j) ltac:(intros; apply H; lia)).
  apply Er_rnd. apply Er_add.
  - rewrite pow_add, pow_1. apply Er_rnd. rewrite pow_add, pow_1, Rmult_comm. apply Er_mul; auto; try apply u_pow; try lra.
    rewrite <- (Rmult_1_l (1 + u)). apply Er_rnd. apply Er_exact_pos. lra.
  - apply Er_le with ((1 + u) ^ (m + 1)); [apply u_pow_le; lia|]. rewrite pow_add, pow_1. apply Er_rnd.
    rewrite <- (Rmult_1_l ((1 + u) ^ m)). apply Er_mul; auto; try apply u_pow; try lra. apply Er_exact_pos. lra.
Qed.
Lemma dct_err degs xs f f' F k : length xs = length degs -> Forall (fun x => 0 <= x <= 1) xs ->
  (forall i, (i < n_coeffs degs)%nat -> Er ((1 + u) ^ k) (f' i) (f i) (F i)) ->
  Er ((1 + u) ^ (k + 3 * list_sum degs)) (dctr degs xs f') (dct degs xs f) (dct degs xs F).
Proof using Hu Hr.
  revert xs f f' F k; induction degs as [|p degs IH]; intros [|x xs] f f' F k HL HX H; try discriminate.
  - simpl. rewrite Nat.add_0_r. apply H. unfold n_coeffs; simpl; lia.
  - cbn [dct]. replace (k + 3 * list_sum (p :: degs))%nat with (k + 3 * p + 3 * list_sum degs)%nat by (simpl; lia).
    inversion HX; subst. apply IH; auto. intros m Hm. apply dc_err; auto. intros i Hi. apply H. rewrite n_coeffs_cons. nia.
Qed.

(** Relative error of positive quantities, both sides. *)
Definition Sr (k : nat) (y x : R) : Prop := (1 - u) ^ k * x <= y <= (1 + u) ^ k * x.
Context (Hu1 : u < 1).
Lemma Sr_rnd k y x : 0 <= x -> Sr k y x -> Sr (S k) (rnd y) x.
Proof using Hu Hu1 Hr.
  intros Hx (H1 & H2). specialize (Hr y). assert (0 <= (1 - u) ^ k * x) by (apply Rmult_le_pos; auto; apply pow_le; lra).
  rewrite (Rabs_right y) in Hr by lra. assert (Hy : (1 - u) * y <= rnd y <= (1 + u) * y).
  { unfold Rabs in Hr. destruct (Rcase_abs (rnd y - y)); lra. }
  unfold Sr. cbn [pow]. split.
  - eapply Rle_trans; [|apply Hy]. rewrite Rmult_assoc. apply Rmult_le_compat_l; lra.
  - eapply Rle_trans; [apply Hy|]. rewrite Rmult_assoc. apply Rmult_le_compat_l; lra.
Qed.
Lemma Sr_pos k y x : 0 < x -> Sr k y x -> 0 < y.
Proof using Hu1. intros Hx (H & _). assert (0 < (1 - u) ^ k * x) by (apply Rmult_lt_0_compat; auto; apply pow_lt; lra). lra. Qed.
Lemma Sr_nonneg k y x : 0 <= x -> Sr k y x -> 0 <= y.
Proof using Hu1. intros Hx (H & _). assert (0 <= (1 - u) ^ k * x) by (apply Rmult_le_pos; auto; apply pow_le; lra). lra. Qed.
Lemma Sr_exact x : Sr 0 x x.
Proof. unfold Sr. simpl. lra. Qed.
Lemma Sr_le j k y x : (j <= k)%nat -> 0 <= x -> Sr j y x -> Sr k y x.
Proof using Hu Hu1.
  intros L Hx (H1 & H2). split.
  - eapply Rle_trans; [|exact H1]. apply Rmult_le_compat_r; auto.
    replace k with (j + (k - j))%nat by lia. rewrite pow_add. rewrite <- (Rmult_1_r ((1 - u) ^ j)) at 2.
    apply Rmult_le_compat_l; [apply pow_le; lra|]. apply Rle_trans with (1 ^ (k - j)); [apply pow_incr; lra|rewrite pow1; lra].
  - eapply Rle_trans; [exact H2|]. apply Rmult_le_compat_r; auto. apply u_pow_le. auto.
Qed.
Lemma Sr_add k a b x y : Sr k a x -> Sr k b y -> Sr k (a + b) (x + y).
Proof. unfold Sr. intros. lra. Qed.
Lemma Sr_mul j k a b x y : 0 <= x -> 0 <= y -> Sr j a x -> Sr k b y -> Sr (j + k) (a * b) (x * y).
Proof using Hu Hu1.
  intros Hx Hy H K. pose proof (Sr_nonneg _ _ _ Hx H) as Pa. pose proof (Sr_nonneg _ _ _ Hy K) as Pb.
  destruct H as (H1 & H2), K as (K1 & K2). unfold Sr. rewrite !pow_add. split.
  - replace ((1 - u) ^ j * (1 - u) ^ k * (x * y)) with ((1 - u) ^ j * x * ((1 - u) ^ k * y)) by ring.
    apply Rmult_le_compat; auto; apply Rmult_le_pos; auto; apply pow_le; lra.
  - replace ((1 + u) ^ j * (1 + u) ^ k * (x * y)) with ((1 + u) ^ j * x * ((1 + u) ^ k * y)) by ring.
    apply Rmult_le_compat; auto.
Qed.
Lemma pow_two_sided k : 2 <= (1 + u) ^ k + (1 - u) ^ k.
Proof using Hu Hu1.
  assert (H : forall n, 1 <= (1 + u) ^ n /\ 0 <= (1 - u) ^ n <= 1 /\ 2 <= (1 + u) ^ n + (1 - u) ^ n).
  { induction n as [|n (A & B & C)]; simpl; [lra|]. split; [nra|]. split; [nra|].
    assert (u * ((1 + u) ^ n - (1 - u) ^ n) >= 0) by (apply Rle_ge, Rmult_le_pos; lra). nra. }
  apply H.
Qed.
Lemma Sr_Er k y x : 0 <= x -> Sr k y x -> Er ((1 + u) ^ k) y x x.
Proof using Hu Hu1.
  intros Hx (H1 & H2). split; [|rewrite Rabs_right; lra]. apply Rabs_le. split; [|lra].
  pose proof (pow_two_sided k). assert (2 * x <= ((1 + u) ^ k + (1 - u) ^ k) * x) by (apply Rmult_le_compat_r; auto). lra.
Qed.
(** The inverse of a positive quantity. *)
Lemma Sr_inv k y x : 0 < x -> Sr k y x -> Er (/ (1 - u) ^ k) (/ y) (/ x) (/ x).
Proof using Hu Hu1.
  intros Hx H. pose proof (Sr_pos _ _ _ Hx H) as Hy. destruct H as (H1 & H2).
  assert (Pa : 0 < (1 - u) ^ k) by (apply pow_lt; lra). assert (Pb : 0 < (1 + u) ^ k) by (apply pow_lt; lra).
  assert (Ix : 0 < / x) by (apply Rinv_0_lt_compat; auto). assert (Iy : 0 < / y) by (apply Rinv_0_lt_compat; auto).
  split; [|rewrite Rabs_right; lra].
  assert (U : / y <= / (1 - u) ^ k * / x).
  { rewrite <- Rinv_mult. apply Rinv_le_contravar; auto. apply Rmult_lt_0_compat; auto. }
  assert (L : / (1 + u) ^ k * / x <= / y).
  { rewrite <- Rinv_mult. apply Rinv_le_contravar; auto. }
  assert (S2 : 2 <= / (1 + u) ^ k + / (1 - u) ^ k).
  { assert (P1 : (1 + u) ^ k * (1 - u) ^ k <= 1).
    { rewrite <- Rpow_mult_distr. apply Rle_trans with (1 ^ k); [|rewrite pow1; lra]. apply pow_incr. split; [apply Rmult_le_pos; lra|]. nra. }
    pose proof (pow_two_sided k) as S. set (a := (1 + u) ^ k) in *. set (b := (1 - u) ^ k) in *.
    replace (/ a + / b) with ((a + b) * / (a * b)) by (field; lra).
    assert (0 < a * b) by (apply Rmult_lt_0_compat; auto).
    assert (1 <= / (a * b)) by (rewrite <- Rinv_1; apply Rinv_le_contravar; auto). nra. }
  apply Rabs_le. split; [|lra].
  assert (2 * / x <= (/ (1 + u) ^ k + / (1 - u) ^ k) * / x) by (apply Rmult_le_compat_r; lra). lra.
Qed.
Lemma dc_nonneg x f r j : 0 <= x <= 1 -> (forall i, (j <= i <= j + r)%nat -> 0 <= f i) -> 0 <= dc x f r j.
Proof.
  intros Hx. revert j; induction r; intros j H; cbn [dc]; [apply H; lia|]. cbn [vadd vscale VOps_scalar sadd smul ssub s1 SOps_R].
  assert (A := IHr j ltac:(intros; apply H; lia)). assert (B := IHr (S j) ltac:(intros; apply H; lia)).
  apply Rplus_le_le_0_compat; apply Rmult_le_pos; lra.
Qed.
Lemma dc_sr x f f' r k : 0 <= x <= 1 -> forall j,
  (forall i, (j <= i <= j + r)%nat -> 0 <= f i /\ Sr k (f' i) (f i)) ->
  Sr (k + 3 * r) (dcr x f' r j) (dc x f r j).
Proof using Hu Hu1 Hr.
  intros Hx. induction r; intros j H; [rewrite Nat.mul_0_r, Nat.add_0_r; apply H; lia|].
  assert (Na : 0 <= dc x f r j) by (apply dc_nonneg; auto; intros; apply H; lia).
  assert (Nb : 0 <= dc x f r (S j)) by (apply dc_nonneg; auto; intros; apply H; lia).
  cbn [dc vadd vscale VOps_scalar sadd smul ssub s1 SOps_rnd SOps_R]. replace (k + 3 * S r)%nat with (S (S (S (k + 3 * r)))) by lia.
  set (m := (k + 3 * r)%nat) in *.
  assert (Ea := IHr j ltac:(intros; apply H; lia)). assert (Eb := IHr (S j) ltac:(intros; apply H; lia)).
  assert (0 <= (1 - x) * dc x f r j) by (apply Rmult_le_pos; lra). assert (0 <= x * dc x f r (S j)) by (apply Rmult_le_pos; lra).
  apply Sr_rnd; [apply Rplus_le_le_0_compat; auto|]. apply Sr_add.
  - apply Sr_rnd; auto. change (S m) with (1 + m)%nat. apply Sr_mul; auto; [lra|]. apply Sr_rnd; [lra|]. apply Sr_exact.
  - apply Sr_le with (S m); auto. apply Sr_rnd; auto. change m with (0 + m)%nat at 1. apply Sr_mul; auto; [lra|]. apply Sr_exact.
Qed.
Lemma dct_nonneg degs xs f : length xs = length degs -> Forall (fun x => 0 <= x <= 1) xs ->
  (forall i, (i < n_coeffs degs)%nat -> 0 <= f i) -> 0 <= dct degs xs f.
Proof.
  revert xs f; induction degs as [|p degs IH]; intros [|x xs] f HL HX H; try discriminate; [apply H; unfold n_coeffs; simpl; lia|].
  cbn [dct]. inversion HX; subst. apply IH; auto. intros m Hm. apply dc_nonneg; auto. intros i Hi. apply H. rewrite n_coeffs_cons. nia.
Qed.
Lemma dct_sr degs xs f f' k : length xs = length degs -> Forall (fun x => 0 <= x <= 1) xs ->
  (forall i, (i < n_coeffs degs)%nat -> 0 <= f i /\ Sr k (f' i) (f i)) ->
  Sr (k + 3 * list_sum degs) (dctr degs xs f') (dct degs xs f).
Proof using Hu Hu1 Hr.
  revert xs f f' k; induction degs as [|p degs IH]; intros [|x xs] f f' k HL HX H; try discriminate.
  - simpl. rewrite Nat.add_0_r. apply H. unfold n_coeffs; simpl; lia.
  - cbn [dct]. replace (k + 3 * list_sum (p :: degs))%nat with (k + 3 * p + 3 * list_sum degs)%nat by (simpl; lia).
    inversion HX; subst. apply IH; auto. intros m Hm. split.
    + apply dc_nonneg; auto. intros i Hi. apply H. rewrite n_coeffs_cons. nia.
    + apply dc_sr; auto. intros i Hi. apply H. rewrite n_coeffs_cons. nia.
Qed.

(** ** Basis functions *)
Lemma Sr_mul_rnd j k a b x y : 0 <= x -> 0 <= y -> Sr j a x -> Sr k b y -> Sr (j + k + 1) (rnd (a * b)) (x * y).
Proof using Hu Hu1 Hr. intros. rewrite Nat.add_1_r. apply Sr_rnd; [apply Rmult_le_pos; auto|]. apply Sr_mul; auto. Qed.
Lemma spow_nonneg x n : 0 <= x -> 0 <= spow x n.
Proof. intros H. induction n; cbn [spow s1 smul SOps_R]; [lra|]. apply Rmult_le_pos; auto. Qed.
Lemma ofN_nonneg k : 0 <= IZR (Z.of_N k).
Proof. apply IZR_le. lia. Qed.
Lemma bernstein_nonneg' p j x : 0 <= x <= 1 -> 0 <= bernstein p j x.
Proof.
  intros. unfold bernstein. cbn [smul SOps_R ssub s1 sofN].
  apply Rmult_le_pos; [apply Rmult_le_pos; [apply ofN_nonneg|]|]; apply spow_nonneg; lra.
Qed.
Lemma Bernstein_sr MAXB p x : (MAXB <= 68)%nat -> (p < MAXB)%nat -> 0 <= x <= 1 -> exists l,
  BernsteinEvaluate (o := ornd) MAXB p x = Ok l /\ length l = S p /\
  forall j, (j <= p)%nat -> Sr (2 * p + 3) (nth j l 0) (bernstein p j x).
Proof using Hu Hu1 Hr.
  intros HB Hp Hx. unfold BernsteinEvaluate. rewrite (proj2 (Nat.ltb_lt p MAXB)) by auto. cbn [assert_ bind].
  set (b0 := fun j => IZR (Z.of_N (binom p j)) * spow x j).
  assert (Nx : forall j, 0 <= spow x j) by (intros; apply spow_nonneg; lra).
  assert (Ny : forall j, 0 <= spow (1 - x) j) by (intros; apply spow_nonneg; lra).
  assert (Nb : forall j, 0 <= b0 j) by (intros; apply Rmult_le_pos; auto; apply ofN_nonneg).
  edestruct (for_up_inv (fun i '((ev, c) : list R * R) =>
      Sr i c (spow x i) /\ length ev = i /\ forall j, (j < i)%nat -> Sr (j + 2) (nth j ev 0) (b0 j)))
    as ([ev c] & E & Hc & HL & HN).
  3:{ rewrite E. cbn [bind]. clear E.
    edestruct (for_up_inv (fun i '((ev', c') : list R * R) =>
      Sr (2 * i) c' (spow (1 - x) i) /\ length ev' = S p /\
      forall j, (j <= p)%nat -> if (p - j <? i)%nat then Sr (2 * p + 3) (nth j ev' 0) (bernstein p j x) else Sr (j + 2) (nth j ev' 0) (b0 j)))
    as ([ev' c'] & E & Hc' & HL' & HN').
    3:{ rewrite E. cbn [bind]. exists ev'. split; auto. split; auto. intros j Hj. specialize (HN' j Hj).
        rewrite (proj2 (Nat.ltb_lt _ _)) in HN' by lia. auto. }
    - split; [apply Sr_exact|]. split; [lia|]. intros j Hj. apply HN. lia.
    - intros i [ev1 c1] Hi (Hc1 & HL1 & HN1).
      rewrite (get_ok 0) by lia. cbn [bind]. rewrite set_ok by lia. cbn [bind].
      eexists; split; [reflexivity|]. split; [|split].
      + replace (2 * S i)%nat with (2 * i + 1 + 1)%nat by lia. cbn [spow smul SOps_R SOps_rnd ssub s1]. rewrite (Rmult_comm (1 - x)).
        apply Sr_mul_rnd; auto; [lra|]. apply Sr_rnd; [lra|]. apply Sr_exact.
      + rewrite length_upd. auto.
      + intros j Hj. specialize (HN1 j Hj). rewrite nth_upd by lia. destruct (Nat.eqb_spec j (p - i)) as [->|Hne].
        * replace (p - (p - i))%nat with i in * by lia. rewrite Nat.ltb_irrefl in HN1.
          rewrite (proj2 (Nat.ltb_lt i (S i))) by lia. apply Sr_le with (p - i + 2 + 2 * i + 1)%nat; [lia|apply bernstein_nonneg'; auto|].
          unfold bernstein. replace (p - (p - i))%nat with i by lia.
          change (Sr (p - i + 2 + 2 * i + 1) (rnd (nth (p - i) ev1 0 * c1)) (b0 (p - i)%nat * spow (1 - x) i)).
          apply Sr_mul_rnd; auto.
        * destruct (Nat.ltb_spec (p - j) i), (Nat.ltb_spec (p - j) (S i)); auto; lia. }
  - split; [apply Sr_exact|]. split; [reflexivity|]. intros; lia.
  - intros i [ev c] Hi (Hc & HL & HN). rewrite choose_ok by lia. cbn [bind].
    eexists; split; [reflexivity|]. split; [|split].
    + replace (S i) with (i + 0 + 1)%nat by lia. cbn [smul SOps_rnd]. replace (spow x (i + 0 + 1)) with (spow x i * x).
      * apply Sr_mul_rnd; auto; [lra|]. apply Sr_exact.
      * replace (i + 0 + 1)%nat with (S i) by lia. cbn. ring.
    + rewrite app_length; simpl. lia.
    + intros j Hj. destruct (Nat.eq_dec j i) as [->|].
      * rewrite <- HL at 2. rewrite nth_app_last. replace (i + 2)%nat with (1 + i + 1)%nat by lia.
        apply Sr_mul_rnd; auto; [apply ofN_nonneg|]. apply Sr_rnd; [apply ofN_nonneg|]. apply Sr_exact.
      * rewrite app_nth1 by lia. apply HN. lia.
Qed.

Definition Sr' (k : nat) (y x : R) : Prop := 0 <= x /\ Sr k y x.
Lemma Combine_sr (g : nat -> nat) G fs' fs : (forall i, rres (Forall2 (Sr' (g i))) (get fs' i) (get fs i)) ->
  forall k m r' r c' c, Forall2 (Sr' G) r' r -> Sr' m c' c -> (m + list_sum (map (fun i => g i + 1)%nat (seq 0 (S k))) <= G)%nat ->
  rres (Forall2 (Sr' G)) (RecursiveCombine_ (o := ornd) k fs' r' c') (RecursiveCombine_ k fs r c).
Proof using Hu Hu1 Hr.
  intros Hf. induction k; intros m r' r c' c Hr' Hc HG; cbn [RecursiveCombine_];
    (eapply rres_bind; [apply Hf|]; intros l' l Hl; rewrite (F2_length _ _ _ Hl);
     apply rres_for_up; auto; intros i w' w Hw; eapply rres_bind; [apply rres_get; exact Hl|]; intros x' x Hx).
  - simpl. apply Forall2_app; auto. constructor; auto. destruct Hc, Hx. split; [apply Rmult_le_pos; auto|].
    apply Sr_le with (m + g 0%nat + 1)%nat; [simpl in HG; lia|apply Rmult_le_pos; auto|]. apply Sr_mul_rnd; auto.
  - apply (IHk (m + g (S k) + 1)%nat); auto.
    + destruct Hc, Hx. split; [apply Rmult_le_pos; auto|]. apply Sr_mul_rnd; auto.
    + rewrite seq_S, map_app, list_sum_app in HG. simpl in HG. simpl. lia.
Qed.
Lemma map_seq_nth {A B} (f : A -> B) d l : map f l = map (fun i => f (nth i l d)) (seq 0 (length l)).
Proof.
  induction l as [|a l IH]; [reflexivity|]. simpl. f_equal. rewrite IH, <- seq_shift, map_map. reflexivity.
Qed.
Lemma Basis_sr {V} MAXB (s : spline V) xs : (MAXB <= 68)%nat -> wf s -> length xs = length (degrees s) ->
  Forall (fun p => (p < MAXB)%nat) (degrees s) -> Forall (fun x => 0 <= x <= 1) xs ->
  exists l', BasisFunctions (o := ornd) MAXB s xs = Ok l' /\
    Forall2 (Sr' (basis_roundings (degrees s))) l' (map (basis_at (degrees s) xs) (seq 0 (n_coeffs (degrees s)))).
Proof using Hu Hu1 Hr.
  intros HB Hw HL Hp HX. pose proof (BasisFunctions_ok MAXB HB s xs Hw HL Hp) as E.
  assert (R : rres (Forall2 (Sr' (basis_roundings (degrees s)))) (BasisFunctions (o := ornd) MAXB s xs) (BasisFunctions MAXB s xs)).
  { unfold BasisFunctions. rewrite (Contributions_ok (o := SOps_R) (F := SField_R) MAXB HB s xs HL Hp).
    assert (C : exists fs', BasisFunctionContributions (o := ornd) MAXB s xs = Ok fs' /\ length fs' = length (degrees s) /\
      forall j, (j < length (degrees s))%nat -> length (nth j fs' []) = S (nth j (degrees s) 0%nat) /\
        forall i, (i <= nth j (degrees s) 0)%nat ->
          Sr (2 * nth j (degrees s) 0%nat + 3) (nth i (nth j fs' []) 0) (bernstein (nth j (degrees s) 0%nat) i (nth j xs 0))).
    { unfold BasisFunctionContributions. edestruct (for_up_inv (fun k (fs : list (list R)) => length fs = length (degrees s) /\
        forall j, (j < k)%nat -> length (nth j fs []) = S (nth j (degrees s) 0%nat) /\
        forall i, (i <= nth j (degrees s) 0)%nat ->
          Sr (2 * nth j (degrees s) 0%nat + 3) (nth i (nth j fs []) 0) (bernstein (nth j (degrees s) 0%nat) i (nth j xs 0))))
        as (fs & E' & HL' & HN).
      3:{ exists fs. split; [exact E'|]. split; auto. }
      - rewrite repeat_length. split; auto. intros; lia.
      - intros k fs Hk (HL' & HN). rewrite (get_ok 0%nat) by lia. cbn [bind]. rewrite (get_ok 0) by lia. cbn [bind].
        destruct (Bernstein_sr MAXB (nth k (degrees s) 0%nat) (nth k xs 0)) as (b & Eb & Lb & Nb); auto.
        { eapply Forall_forall in Hp; eauto. apply nth_In. lia. }
        { eapply Forall_forall in HX; eauto. apply nth_In. lia. }
        rewrite Eb. cbn [bind]. rewrite set_ok by lia. eexists; split; [reflexivity|]. rewrite length_upd. split; auto.
        intros j Hj. rewrite nth_upd by lia. destruct (Nat.eqb_spec j k) as [->|]; auto. apply HN. lia. }
    destruct C as (fs' & EC & LC & NC). rewrite EC. cbn [bind]. unfold RecursiveCombine.
    rewrite LC, (length_map2 bern_list) by lia.
    assert (D0 : (0 < length (degrees s))%nat) by (destruct Hw as (D & _); destruct (degrees s); [congruence|simpl; lia]).
    apply (Combine_sr (fun i => 2 * nth i (degrees s) 0 + 3)%nat) with (m := 0%nat).
    - intros i. destruct (lt_dec i (length (degrees s))) as [Hi|Hi].
      2:{ rewrite !get_ub; [simpl; auto|rewrite (length_map2 bern_list); lia|lia]. }
      rewrite (get_ok []) by lia. rewrite (get_ok []) by (rewrite (length_map2 bern_list); lia). simpl.
      rewrite (nth_map2 _ _ _ _ 0%nat 0) by lia. destruct (NC i Hi) as (Li & Ni).
      assert (F : forall (l l' : list R) k, length l' = length l -> (forall j, (j < length l)%nat -> Sr' k (nth j l' 0) (nth j l 0)) -> Forall2 (Sr' k) l' l).
      { induction l as [|a l IH]; intros [|a' l'] k HLL HH; try discriminate; constructor.
        - apply (HH 0%nat). simpl; lia.
        - apply IH; auto. intros j Hj. apply (HH (S j)). simpl; lia. }
      apply F; [rewrite length_bern_list; auto|]. rewrite length_bern_list. intros j Hj. 
      replace (nth j (bern_list (nth i (degrees s) 0%nat) (nth i xs 0)) 0) with (bernstein (nth i (degrees s) 0%nat) j (nth i xs 0))
        by (symmetry; apply (nth_bern_list (o := SOps_R)); lia).
      split.
      + apply bernstein_nonneg'. eapply Forall_forall in HX; eauto. apply nth_In. lia.
      + apply Ni. lia.
    - constructor.
    - split; [cbn; lra|]. apply Sr_exact.
    - unfold basis_roundings. rewrite (map_seq_nth _ 0%nat (degrees s)). replace (S (length (degrees s) - 1)) with (length (degrees s)) by lia.
      apply Nat.eq_le_incl. simpl plus. f_equal. apply map_ext. intros. lia. }
  rewrite E in R. destruct (BasisFunctions (o := ornd) MAXB s xs) as [l'| | | | |]; try contradiction. exists l'. split; auto.
Qed.

(** ** The accumulation loop *)
Lemma Accumulate_err (N K : nat) (b b' c : nat -> R) : (forall y, rnd (0 + rnd y) = rnd y) -> forall n,
  (forall i, (i < n)%nat -> 0 <= b i /\ Sr K (b' i) (b i)) ->
  Er ((1 + u) ^ (K + n)) (vsum (ov := VOps_scalar R (o := ornd)) n (fun i => rnd (b' i * c i)))
    (vsum n (fun i => b i * c i)) (vsum n (fun i => b i * Rabs (c i))).
Proof using Hu Hu1 Hr.
  intros H0. induction n as [|n IH]; intros H.
  - change (Er ((1 + u) ^ (K + 0)) 0 0 0). unfold Er. rewrite Rminus_0_r, Rabs_R0, Rmult_0_r. lra.
  - assert (T : Er ((1 + u) ^ (K + 1)) (rnd (b' n * c n)) (b n * c n) (b n * Rabs (c n))).
    { rewrite pow_add, pow_1. apply Er_rnd. rewrite <- (Rmult_1_r ((1 + u) ^ K)). destruct (H n) as (A & B); [lia|].
      apply Er_mul; [apply u_pow|lra| |apply Er_exact]. apply Sr_Er; auto. }
    cbn [vsum vadd VOps_scalar sadd SOps_rnd SOps_R]. destruct n as [|n].
    + cbn [vsum v0 VOps_scalar s0 SOps_rnd SOps_R]. rewrite H0, !Rplus_0_l. auto.
    + replace (K + S (S n))%nat with (K + S n + 1)%nat by lia. rewrite pow_add, pow_1. apply Er_rnd. apply Er_add.
      * apply IH. intros; apply H; lia.
      * eapply Er_le; [|exact T]. apply u_pow_le. lia.
Qed.
End Err.
