(** The basis functions in floating-point arithmetic with bounded exponents. *)
From Coq Require Import Arith Lia List ZArith NArith Bool Reals Lra Psatz.
From Verif Require Import Prelude Scalar Spec SpecSpline Sums Coord ModelBasis ModelSpline ModelRational
  ModelRound SpecRound ModelIEEE SpecIEEE ModelIEEEFwd SpecIEEEFwd ProofIndex ProofBasis ProofEval ProofParam ProofRound ProofRoundEval ProofRoundMul
  ProofLeibniz ProofIEEE ProofIEEEEval ClaimsU.
Import ListNotations.
Local Open Scope R_scope.

Lemma INR_pos_le a b : (a <= b)%nat -> INR a <= INR b.
Proof. apply le_INR. Qed.
Lemma ssum_R_le n (f : nat -> R) j : (forall i, (i < n)%nat -> 0 <= f i) -> (j < n)%nat -> f j <= ssum n f.
Proof.
  induction n; intros H Hj; [lia|]. cbn [ssum sadd SOps_R].
  assert (P : forall m, (m <= n)%nat -> 0 <= ssum m f).
  { induction m; intros Hm; cbn [ssum s0 sadd SOps_R]; [lra|]. specialize (IHm ltac:(lia)). specialize (H m ltac:(lia)). lra. }
  destruct (Nat.eq_dec j n) as [->|].
  - specialize (P n ltac:(lia)). lra.
  - specialize (IHn ltac:(intros; apply H; lia) ltac:(lia)). specialize (H n ltac:(lia)). lra.
Qed.
Lemma ssum_R_mono (f : nat -> R) N : (forall i, (i < N)%nat -> 0 <= f i) -> forall n, (n <= N)%nat -> 0 <= ssum n f <= ssum N f.
Proof.
  intros H n Hn. split.
  - induction n; cbn [ssum s0 sadd SOps_R]; [lra|]. specialize (H n Hn). specialize (IHn ltac:(lia)). lra.
  - induction Hn as [|m Hm IH]; [lra|]. cbn [ssum sadd SOps_R]. specialize (IH ltac:(intros; apply H; lia)). specialize (H m ltac:(lia)). lra.
Qed.
Lemma bernstein_le_1 q j x : 0 <= x <= 1 -> (j <= q)%nat -> bernstein q j x <= 1.
Proof.
  intros Hx Hj. change 1 with (s1 (SOps := SOps_R)). rewrite <- (bernstein_sum q x).
  apply (ssum_R_le (S q) (fun j => bernstein q j x)); [|lia]. intros; apply bernstein_nonneg'; auto.
Qed.
Lemma spow_unit x n : 0 <= x <= 1 -> 0 <= spow x n <= 1.
Proof. intros Hx. induction n; cbn [spow s1 smul SOps_R]; [lra|]. nra. Qed.
Lemma binom_R_bound q j : IZR (Z.of_N (binom q j)) <= 2 ^ q.
Proof.
  rewrite pow_IZR. apply IZR_le. pose proof (binom_le_pow q j) as H.
  apply N2Z.inj_le in H. rewrite N2Z.inj_pow, nat_N_Z in H. exact H.
Qed.

Section IEEE.
Context (F : format) (HF : reasonable F) (rnd : R -> R) (HR : nearest_on_grid F rnd).
Notation p := (prec F).
Notation oi := (SOps_ieee F rnd).
Let u := / 2 ^ p.
Let t := tiny F / 2.
Let Hu : 0 <= u := unit_pos p.
Lemma tpos : 0 < t.
Proof. unfold t, tiny. pose proof (two_pos (emin F)). lra. Qed.

Definition Bd (k : nat) (e y x : R) : Prop := Rabs (y - x) <= ((1 + u) ^ k - 1) * x + (1 + u) ^ k * e.

Lemma U_1 k : 1 <= (1 + u) ^ k.
Proof using Hu. apply pow_R1_Rle. lra. Qed.
Lemma U_le k m : (k <= m)%nat -> (1 + u) ^ k <= (1 + u) ^ m.
Proof using Hu. apply Rle_pow. lra. Qed.
Lemma Bd_exact e x : 0 <= e -> Bd 0 e x x.
Proof. intros. unfold Bd. rewrite Rminus_eq_0, Rabs_R0. simpl. lra. Qed.
Lemma Bd_le k m e e' y x : (k <= m)%nat -> 0 <= e <= e' -> 0 <= x -> Bd k e y x -> Bd m e' y x.
Proof using Hu.
  intros Hk He Hx H. unfold Bd in *. pose proof (U_le k m Hk). pose proof (U_1 k). eapply Rle_trans; [exact H|].
  apply Rplus_le_compat; [nra|]. apply Rmult_le_compat; lra.
Qed.
Lemma Bd_upper k e y x : Bd k e y x -> y <= (1 + u) ^ k * (x + e).
Proof. unfold Bd. intros H. unfold Rabs in H. destruct (Rcase_abs (y - x)); lra. Qed.
Lemma rnd_nonneg x : 0 <= x -> 0 <= rnd x.
Proof using HR. intros H. rewrite <- (rnd_0 F rnd HR). apply (rnd_mono F rnd HR). auto. Qed.
Lemma Bd_rnd k e z x : 0 <= e -> 0 <= x -> 0 <= z -> Bd k e z x -> Bd (k + 1) (e + t) (rnd z) x.
Proof using HF HR Hu.
  intros He Hx Hz H. pose proof (Bd_upper _ _ _ _ H) as HU. unfold Bd in *.
  pose proof (rnd_error F HF rnd HR z) as E. fold u t in E. rewrite (Rabs_right z) in E by lra.
  replace (rnd z - x) with ((rnd z - z) + (z - x)) by ring. eapply Rle_trans; [apply Rabs_triang|].
  rewrite pow_add, pow_1. pose proof (U_1 k). pose proof tpos.
  assert (u * z <= u * ((1 + u) ^ k * (x + e))) by (apply Rmult_le_compat_l; auto).
  set (A := (1 + u) ^ k) in *. assert (1 <= A * (1 + u)) by nra. assert (1 * t <= A * (1 + u) * t) by (apply Rmult_le_compat_r; lra). lra.
Qed.
Lemma Bd_rnd_rel k e z x : 0 <= e -> 0 <= x -> 0 <= z -> Rabs (rnd z - z) <= u * z -> Bd k e z x -> Bd (k + 1) e (rnd z) x.
Proof using Hu.
  intros He Hx Hz E H. pose proof (Bd_upper _ _ _ _ H) as HU. unfold Bd in *.
  replace (rnd z - x) with ((rnd z - z) + (z - x)) by ring. eapply Rle_trans; [apply Rabs_triang|].
  rewrite pow_add, pow_1. pose proof (U_1 k).
  assert (u * z <= u * ((1 + u) ^ k * (x + e))) by (apply Rmult_le_compat_l; auto). lra.
Qed.
Lemma Bd_prod k k' e e' y y' x x' : 0 <= e -> 0 <= e' -> 0 <= x -> 0 <= x' -> 0 <= y' -> Bd k e y x -> Bd k' e' y' x' ->
  Bd (k + k') (e * x' + e' * x + e * e') (y * y') (x * x').
Proof using Hu.
  intros He He' Hx Hx' Hy' H H'. pose proof (Bd_upper _ _ _ _ H') as HU. unfold Bd in *.
  replace (y * y' - x * x') with ((y - x) * y' + x * (y' - x')) by ring. eapply Rle_trans; [apply Rabs_triang|].
  rewrite !Rabs_mult, (Rabs_right x), (Rabs_right y') by lra. rewrite pow_add.
  pose proof (U_1 k). pose proof (U_1 k'). set (A := (1 + u) ^ k) in *. set (B := (1 + u) ^ k') in *.
  apply Rle_trans with (((A - 1) * x + A * e) * (B * (x' + e')) + x * ((B - 1) * x' + B * e')).
  - apply Rplus_le_compat; [|apply Rmult_le_compat_l; auto]. apply Rmult_le_compat; auto. apply Rabs_pos.
  - right. ring.
Qed.
(** The same when the second factor is computed at most 1. *)
Lemma Bd_prod1 k k' e e' y y' x x' : 0 <= e -> 0 <= e' -> 0 <= x -> 0 <= x' -> 0 <= y' <= 1 -> Bd k e y x -> Bd k' e' y' x' ->
  Bd (k + k') (e + e' * x) (y * y') (x * x').
Proof using Hu.
  intros He He' Hx Hx' Hy' H H'. pose proof (Bd_upper _ _ _ _ H') as HU. unfold Bd in *.
  replace (y * y' - x * x') with ((y - x) * y' + x * (y' - x')) by ring. eapply Rle_trans; [apply Rabs_triang|].
  rewrite !Rabs_mult, (Rabs_right x), (Rabs_right y') by lra. rewrite pow_add.
  pose proof (U_1 k). pose proof (U_1 k'). set (A := (1 + u) ^ k) in *. set (B := (1 + u) ^ k') in *.
  apply Rle_trans with ((A - 1) * x * (B * (x' + e')) + A * e * 1 + x * ((B - 1) * x' + B * e')).
  - apply Rplus_le_compat; [|apply Rmult_le_compat_l; auto].
    apply Rle_trans with (((A - 1) * x + A * e) * y'); [apply Rmult_le_compat_r; lra|]. rewrite Rmult_plus_distr_r.
    apply Rplus_le_compat; apply Rmult_le_compat_l; try lra; nra.
  - assert (0 <= A * e) by (apply Rmult_le_pos; lra). assert (A * e * 1 <= A * e * B) by (apply Rmult_le_compat_l; lra). lra.
Qed.
Lemma Bd_mul k k' e e' y y' x x' : 0 <= e -> 0 <= e' -> 0 <= x -> 0 <= x' -> 0 <= y -> 0 <= y' -> Bd k e y x -> Bd k' e' y' x' ->
  Bd (k + k' + 1) (e * x' + e' * x + e * e' + t) (rnd (y * y')) (x * x').
Proof using HF HR Hu.
  intros. apply Bd_rnd; [nra|nra|nra|]. apply Bd_prod; auto.
Qed.
Lemma Bd_mul1 k k' e e' y y' x x' : 0 <= e -> 0 <= e' -> 0 <= x -> 0 <= x' -> 0 <= y -> 0 <= y' <= 1 -> Bd k e y x -> Bd k' e' y' x' ->
  Bd (k + k' + 1) (e + e' * x + t) (rnd (y * y')) (x * x').
Proof using HF HR Hu.
  intros. apply Bd_rnd; [nra|nra|nra|]. apply Bd_prod1; auto.
Qed.

(** A computed number. *)
Definition Fb (k : nat) (e : R) (a : fl) (x : R) : Prop :=
  exists y, a = Fin y /\ on_grid F y /\ 0 <= y /\ 0 <= x /\ Bd k e y x.
Lemma mul_fin y y' B : 0 <= y -> 0 <= y' -> y * y' <= B -> on_grid F B -> B <= omega F ->
  smul (SOps := oi) (Fin y) (Fin y') = Fin (rnd (y * y')) /\ 0 <= rnd (y * y') <= B.
Proof using HF HR.
  intros Hy Hy' HB GB HO. assert (0 <= rnd (y * y') <= B).
  { split; [apply rnd_nonneg; nra|]. rewrite <- (rnd_id F rnd HR B GB). apply (rnd_mono F rnd HR). auto. }
  split; auto. cbn [smul SOps_ieee fl_lift2]. apply deliver_ok. rewrite Rabs_right; lra.
Qed.
Lemma grid_pow2 q : on_grid F (2 ^ q).
Proof using HF.
  rewrite pow_powerRZ. apply grid_w; auto. destruct HF as (? & ? & ?). lia.
Qed.
Lemma powerRZ_neg_le_1 e : (e <= 0)%Z -> powerRZ 2 e <= 1.
Proof. intros H. change 1 with (powerRZ 2 0). apply two_le. auto. Qed.

Definition bern_loss (q : nat) : R := INR (q + 2) * 2 ^ q * t.
Lemma Bernstein_fb MAXB q x : (MAXB <= 68)%nat -> (q < MAXB)%nat -> 2 ^ 68 <= omega F -> on_grid F x -> 0 <= x <= 1 -> exists l,
  BernsteinEvaluate (o := oi) MAXB q (Fin x) = Ok l /\ length l = S q /\
  forall j, (j <= q)%nat -> Fb (2 * q + 3) (bern_loss q) (nth j l Exc) (bernstein q j x).
Proof using HF HR Hu.
  intros HB Hp HO Gx Hx. unfold BernsteinEvaluate. rewrite (proj2 (Nat.ltb_lt q MAXB)) by auto. cbn [assert_ bind].
  set (b0 := fun j => IZR (Z.of_N (binom q j)) * spow x j).
  pose proof (spow_unit x) as Nx. pose proof (spow_unit (1 - x)) as Ny.
  assert (B0 : forall j, 0 <= IZR (Z.of_N (binom q j)) <= 2 ^ q) by (intros; split; [apply IZR_le; lia|apply binom_R_bound]).
  assert (Nb : forall j, 0 <= b0 j <= 2 ^ q) by (intros; unfold b0; specialize (B0 j); specialize (Nx j Hx); nra).
  pose proof tpos as Ht. assert (Q1 : 1 <= 2 ^ q) by (apply pow_R1_Rle; lra).
  assert (QO : 2 ^ q <= omega F) by (apply Rle_trans with (2 ^ 68); auto; apply Rle_pow; [lra|lia]).
  assert (O1 : 1 <= omega F) by lra.
  assert (G1 : on_grid F 1) by (apply grid_1; auto).
  pose proof (rnd_unit F HF rnd HR x Gx Hx) as Hi1.
  assert (Ei : ssub (SOps := oi) (s1 (SOps := oi)) (Fin x) = Fin (rnd (1 - x))).
  { cbn [ssub s1 SOps_ieee fl_lift2]. apply deliver_ok. rewrite Rabs_right; lra. }
  assert (Bi : Bd 1 0 (rnd (1 - x)) (1 - x)).
  { pose proof (rnd_error_sum F HF rnd HR 1 (- x) G1 (grid_opp F x Gx)) as E. fold u in E.
    change (1 + - x) with (1 - x) in E. rewrite (Rabs_right (1 - x)) in E by lra. unfold Bd. rewrite pow_1. lra. }
  set (bd := fun j => INR (j + 1) * 2 ^ q * t).
  edestruct (for_up_inv (fun i '((ev, c) : list fl * fl) =>
      (exists y, c = Fin y /\ on_grid F y /\ 0 <= y <= 1 /\ Bd i (INR i * t) y (spow x i)) /\ length ev = i /\
      forall j, (j < i)%nat -> exists y, nth j ev Exc = Fin y /\ 0 <= y <= 2 ^ q /\ Bd (j + 2) (bd j) y (b0 j)))
    as ([ev c] & E & Hc & HL & HN).
  3:{ rewrite E. cbn [bind]. clear E.
    edestruct (for_up_inv (fun i '((ev', c') : list fl * fl) =>
      (exists y, c' = Fin y /\ on_grid F y /\ 0 <= y <= 1 /\ Bd (2 * i) (INR i * t) y (spow (1 - x) i)) /\ length ev' = S q /\
      forall j, (j <= q)%nat -> if (q - j <? i)%nat then Fb (2 * q + 3) (bern_loss q) (nth j ev' Exc) (bernstein q j x)
        else exists y, nth j ev' Exc = Fin y /\ 0 <= y <= 2 ^ q /\ Bd (j + 2) (bd j) y (b0 j)))
    as ([ev' c'] & E & Hc' & HL' & HN').
    3:{ rewrite E. cbn [bind]. exists ev'. split; auto. split; auto. intros j Hj. specialize (HN' j Hj).
        rewrite (proj2 (Nat.ltb_lt _ _)) in HN' by lia. auto. }
    - split; [|split; [lia|]].
      + exists 1. split; [reflexivity|]. split; [auto|]. split; [lra|]. apply Bd_exact. simpl. lra.
      + intros j Hj. apply HN. lia.
    - intros i [ev1 c1] Hi ((y1 & Ec1 & Gy1 & Hy1 & Hc1) & HL1 & HN1).
      rewrite (get_ok Exc) by lia. cbn [bind]. rewrite set_ok by lia. cbn [bind].
      eexists; split; [reflexivity|]. split; [|split].
      + rewrite Ei, Ec1. destruct (mul_fin y1 (rnd (1 - x)) 1) as (Em & Bm); try lra; auto; [nra|].
        rewrite Em. eexists; split; [reflexivity|]. split; [apply HR|]. split; [auto|].
        replace (2 * S i)%nat with (2 * i + 1 + 1)%nat by lia. cbn [spow smul SOps_R ssub s1]. rewrite (Rmult_comm (1 - x)), S_INR.
        specialize (Ny i ltac:(lra)). pose proof (pos_INR i).
        apply Bd_le with (2 * i + 1 + 1)%nat (INR i * t + 0 * spow (1 - x) i + t); [lia|split; nra|nra|].
        apply Bd_mul1; auto; try lra; try nra.
      + rewrite length_upd. auto.
      + intros j Hj. specialize (HN1 j Hj). rewrite nth_upd by lia. destruct (Nat.eqb_spec j (q - i)) as [->|Hne].
        * replace (q - (q - i))%nat with i in * by lia. rewrite Nat.ltb_irrefl in HN1.
          rewrite (proj2 (Nat.ltb_lt i (S i))) by lia. destruct HN1 as (y & Ey & Hy & By). rewrite Ey, Ec1.
          destruct (mul_fin y y1 (2 ^ q)) as (Em & Bm); try lra; [nra|apply grid_pow2|].
          rewrite Em. exists (rnd (y * y1)). split; [reflexivity|]. split; [apply HR|]. split; [apply Bm|].
          split; [apply bernstein_nonneg'; auto|].
          unfold bernstein. replace (q - (q - i))%nat with i by lia.
          change (Bd (2 * q + 3) (bern_loss q) (rnd (y * y1)) (b0 (q - i)%nat * spow (1 - x) i)).
          specialize (Ny i ltac:(lra)). specialize (Nb (q - i)%nat). pose proof (pos_INR i). pose proof (pos_INR (q - i + 1)).
          assert (BD : 0 <= bd (q - i)%nat) by (unfold bd; apply Rmult_le_pos; [|lra]; nra).
          apply Bd_le with (q - i + 2 + 2 * i + 1)%nat (bd (q - i)%nat + INR i * t * b0 (q - i)%nat + t); [lia| |nra|].
          -- split; [assert (0 <= INR i * t) by nra; nra|]. unfold bd, bern_loss.
             assert (INR i * t * b0 (q - i)%nat <= INR i * t * 2 ^ q) by (apply Rmult_le_compat_l; nra).
             replace (INR (q + 2)) with (INR (q - i + 1) + INR i + 1); [nra|].
             rewrite <- plus_INR, <- S_INR. f_equal. lia.
          -- apply Bd_mul1; auto; try lra; nra.
        * destruct (Nat.ltb_spec (q - j) i), (Nat.ltb_spec (q - j) (S i)); auto; lia. }
  - split; [|split; [reflexivity|intros; lia]]. exists 1. split; [reflexivity|]. split; [auto|]. split; [lra|]. apply Bd_exact. simpl. lra.
  - intros i [ev c] Hi ((y & Ec & Gy & Hy & Hc) & HL & HN). rewrite choose_ok by lia. cbn [bind].
    eexists; split; [reflexivity|]. pose proof (pos_INR i) as Pi. pose proof (Nx i Hx) as Nxi. rewrite Ec. split; [|split].
    + destruct (mul_fin y x 1) as (Em & Bm); try lra; auto; [nra|].
      rewrite Em. eexists; split; [reflexivity|]. split; [apply HR|]. split; [auto|].
      replace (S i) with (i + 0 + 1)%nat at 1 by lia. cbn [spow smul SOps_R]. rewrite (Rmult_comm x), S_INR.
      apply Bd_le with (i + 0 + 1)%nat (INR i * t + 0 * spow x i + t); [lia|split; nra|nra|].
      apply Bd_mul1; auto; try lra; [nra|]. apply Bd_exact. lra.
    + rewrite app_length; simpl. lia.
    + intros j Hj. destruct (Nat.eq_dec j i) as [->|].
      * rewrite app_nth2, HL, Nat.sub_diag by lia. cbn [nth].
        set (b := IZR (Z.of_N (binom q i))). specialize (B0 i). fold b in B0.
        assert (b1 : 1 <= b) by (apply IZR_le; pose proof (binom_pos q i ltac:(lia)); lia).
        assert (Rb : 0 <= rnd b <= 2 ^ q).
        { split; [apply rnd_nonneg; lra|]. rewrite <- (rnd_id F rnd HR _ (grid_pow2 q)). apply (rnd_mono F rnd HR). lra. }
        assert (Af : sofN (SOps := oi) (binom q i) = Fin (rnd b)).
        { cbn [sofN SOps_ieee]. fold b. apply deliver_ok. rewrite Rabs_right; lra. }
        rewrite Af. destruct (mul_fin (rnd b) y (2 ^ q)) as (Em & Bm); try lra; [nra|apply grid_pow2|].
        rewrite Em. exists (rnd (rnd b * y)). split; [reflexivity|]. split; [auto|].
        assert (Bb : Bd 1 0 (rnd b) b).
        { change 1%nat with (0 + 1)%nat. apply Bd_rnd_rel; try lra; [|apply Bd_exact; lra].
          apply (large F HF rnd HR). apply Rle_trans with 1; [apply powerRZ_neg_le_1; lia|lra]. }
        change (b0 i) with (b * spow x i). 
        apply Bd_le with (1 + i + 1)%nat (0 + INR i * t * b + t); [lia| |nra|].
        -- unfold bd. rewrite plus_INR. simpl INR. assert (INR i * t * b <= INR i * t * 2 ^ q) by (apply Rmult_le_compat_l; nra).
           assert (0 <= INR i * t) by nra. assert (0 <= INR i * t * b) by nra. assert (1 * t <= 2 ^ q * t) by (apply Rmult_le_compat_r; lra). split; lra.
        -- apply Bd_mul1; auto; try lra; nra.
      * rewrite app_nth1 by lia. apply HN. lia.
Qed.

(** ** Products over the parametric dimensions *)
Definition Fb1 (k : nat) (e : R) (a : fl) (x : R) : Prop := x <= 1 /\ Fb k e a x.
Lemma Fb_mul k k' e e' G E a a' x x' : 0 <= e -> 0 <= e' -> Fb1 k e a x -> Fb1 k' e' a' x' ->
  (k + k' + 1 <= G)%nat -> (1 + e) * (1 + (e' + t)) <= 1 + E -> (1 + u) ^ G * (1 + E) <= omega F ->
  Fb1 (k + k' + 1) ((1 + e) * (1 + (e' + t)) - 1) (smul (SOps := oi) a a') (x * x').
Proof using HF HR Hu.
  intros He He' (X1 & y & -> & G1 & Y1 & X0 & B1) (X1' & y' & -> & G1' & Y1' & X0' & B1') HG HE HO.
  pose proof tpos as Ht. split; [nra|].
  assert (Bm : Bd (k + k' + 1) ((1 + e) * (1 + (e' + t)) - 1) (rnd (y * y')) (x * x')).
  { apply Bd_le with (k + k' + 1)%nat (e * x' + e' * x + e * e' + t); [lia| |nra|].
    - assert (0 <= e * e') by nra. assert (0 <= e * x' <= e) by nra. assert (0 <= e' * x <= e') by nra. split; nra.
    - apply Bd_mul; auto. }
  exists (rnd (y * y')). cbn [smul SOps_ieee fl_lift2]. rewrite deliver_ok.
  - split; [reflexivity|]. split; [apply HR|]. split; [apply rnd_nonneg; nra|]. split; [nra|auto].
  - rewrite Rabs_right by (apply Rle_ge, rnd_nonneg; nra). eapply Rle_trans; [apply (Bd_upper _ _ _ _ Bm)|].
    eapply Rle_trans; [|exact HO]. apply Rmult_le_compat; [apply Rle_trans with 1; [lra|apply U_1]| |apply U_le; auto|].
    + assert (0 <= x * x') by nra. assert (0 <= e * e') by nra. assert (0 <= e * t) by nra. nra.
    + assert (x * x' <= 1) by nra. lra.
Qed.
Lemma Fb1_le k m e e' a x : (k <= m)%nat -> 0 <= e <= e' -> Fb1 k e a x -> Fb1 m e' a x.
Proof using Hu.
  intros H1 H2 (X1 & y & E & G & Y & X0 & B). split; auto. exists y. split; auto. split; auto. split; auto. split; auto.
  eapply Bd_le; eauto.
Qed.
Fixpoint lossp (h : nat -> R) (k : nat) : R := match k with O => 1 | S k' => lossp h k' * (1 + (h k' + t)) end.
Lemma lossp_1 h k : (forall i, 0 <= h i) -> 1 <= lossp h k.
Proof. intros H. pose proof tpos. induction k; cbn [lossp]; [lra|]. specialize (H k). nra. Qed.
Lemma Combine_fb (g : nat -> nat) (h : nat -> R) G E fs' fs : (forall i, 0 <= h i) ->
  (forall i, rres (Forall2 (Fb1 (g i) (h i))) (get fs' i) (get fs i)) -> (1 + u) ^ G * (1 + E) <= omega F ->
  forall k m e r' r c' c, Forall2 (Fb1 G E) r' r -> 0 <= e -> Fb1 m e c' c -> (m + list_sum (map (fun i => g i + 1)%nat (seq 0 (S k))) <= G)%nat ->
  (1 + e) * lossp h (S k) <= 1 + E ->
  rres (Forall2 (Fb1 G E)) (RecursiveCombine_ (o := oi) k fs' r' c') (RecursiveCombine_ (o := SOps_R) k fs r c).
Proof using HF HR Hu.
  intros Hh Hf HO. pose proof tpos as Ht. induction k; intros m e r' r c' c Hr' He Hc HG HE; cbn [RecursiveCombine_];
    (eapply rres_bind; [apply Hf|]; intros l' l Hl; rewrite (F2_length _ _ _ Hl);
     apply rres_for_up; auto; intros i w' w Hw; eapply rres_bind; [apply rres_get; exact Hl|]; intros x' x Hx).
  - simpl. apply Forall2_app; auto. constructor; auto. cbn [lossp] in HE. rewrite Rmult_1_l in HE. specialize (Hh 0%nat).
    apply Fb1_le with (m + g 0 + 1)%nat ((1 + e) * (1 + (h 0%nat + t)) - 1); [simpl in HG; lia|split; nra|].
    apply (Fb_mul m (g 0%nat) e (h 0%nat) G E); auto. simpl in HG. lia.
  - pose proof (Hh (S k)) as H2. pose proof (lossp_1 h (S k) Hh) as L1.
    rewrite seq_S, map_app, list_sum_app in HG. simpl plus in HG. replace (list_sum (map (fun i => (g i + 1)%nat) [S k])) with (g (S k) + 1)%nat in HG by (simpl; lia).
    change (lossp h (S (S k))) with (lossp h (S k) * (1 + (h (S k) + t))) in HE.
    set (e2 := (1 + e) * (1 + (h (S k) + t)) - 1). assert (E2 : 0 <= e2) by (unfold e2; nra).
    assert (LE : (1 + e2) * lossp h (S k) <= 1 + E) by (unfold e2; eapply Rle_trans; [|exact HE]; right; ring).
    apply (IHk (m + g (S k) + 1)%nat e2); auto; [|simpl in HG |- *; lia].
    apply (Fb_mul m (g (S k)) e (h (S k)) G E); auto; [simpl in HG; lia|]. fold e2. assert (1 + e2 <= (1 + e2) * lossp h (S k)) by nra. unfold e2 in *. lra.
Qed.

Lemma lossp_basis (degs : list nat) (h : nat -> R) : (forall i, (i < length degs)%nat -> 0 <= h i <= bern_loss (nth i degs 0%nat)) ->
  forall k, (k <= length degs)%nat -> lossp h k <= fold_right (fun q acc => (1 + INR (q + 3) * 2 ^ q * t) * acc) 1 (firstn k degs).
Proof.
  intros H. pose proof tpos as Ht.
  assert (FR : forall l a, fold_right (fun q acc => (1 + INR (q + 3) * 2 ^ q * t) * acc) a l =
    fold_right (fun q acc => (1 + INR (q + 3) * 2 ^ q * t) * acc) 1 l * a).
  { induction l; intros a0; cbn [fold_right]; [ring|]. rewrite IHl. ring. }
  induction k; intros Hk; [simpl; lra|]. cbn [lossp].
  rewrite (firstn_S_nth 0%nat degs) by lia. rewrite fold_right_app, FR. cbn [fold_right]. rewrite Rmult_1_r.
  specialize (IHk ltac:(lia)). destruct (H k ltac:(lia)) as (H1 & H2). set (q := nth k degs 0%nat) in *.
  assert (1 <= 2 ^ q) by (apply pow_R1_Rle; lra). assert (L1 : forall j, (j <= k)%nat -> 1 <= lossp h j).
  { induction j; intros Hj; cbn [lossp]; [lra|]. specialize (IHj ltac:(lia)). destruct (H j ltac:(lia)). nra. }
  specialize (L1 k ltac:(lia)).
  apply Rmult_le_compat; try lra. unfold bern_loss in H2. replace (INR (q + 3)) with (INR (q + 2) + 1).
  - assert (1 * t <= 2 ^ q * t) by (apply Rmult_le_compat_r; lra). lra.
  - rewrite <- S_INR. f_equal. lia.
Qed.

Lemma Basis_fb {V} MAXB (s : spline V) xs : (MAXB <= 68)%nat -> wf s -> length xs = length (degrees s) ->
  Forall (fun q => (q < MAXB)%nat) (degrees s) -> Forall (on_grid F) xs -> in_unit_box xs -> basis_fits F (degrees s) ->
  exists l', BasisFunctions (o := oi) MAXB s (map Fin xs) = Ok l' /\
    Forall2 (Fb1 (basis_roundings (degrees s)) (basis_loss F (degrees s))) l' (map (basis_at (degrees s) xs) (seq 0 (n_coeffs (degrees s)))).
Proof using HF HR Hu.
  intros HB Hw HL Hp HG HX (HO & HO2). pose proof (BasisFunctions_ok (o := SOps_R) (F := SField_R) MAXB HB s xs Hw HL Hp) as E. pose proof tpos as Ht.
  assert (R : rres (Forall2 (Fb1 (basis_roundings (degrees s)) (basis_loss F (degrees s))))
    (BasisFunctions (o := oi) MAXB s (map Fin xs)) (BasisFunctions (o := SOps_R) MAXB s xs)).
  { unfold BasisFunctions. rewrite (Contributions_ok (o := SOps_R) (F := SField_R) MAXB HB s xs HL Hp).
    assert (C : exists fs', BasisFunctionContributions (o := oi) MAXB s (map Fin xs) = Ok fs' /\ length fs' = length (degrees s) /\
      forall j, (j < length (degrees s))%nat -> length (nth j fs' []) = S (nth j (degrees s) 0%nat) /\
        forall i, (i <= nth j (degrees s) 0)%nat ->
          Fb (2 * nth j (degrees s) 0%nat + 3) (bern_loss (nth j (degrees s) 0%nat)) (nth i (nth j fs' []) Exc) (bernstein (nth j (degrees s) 0%nat) i (nth j xs 0))).
    { unfold BasisFunctionContributions. edestruct (for_up_inv (fun k (fs : list (list fl)) => length fs = length (degrees s) /\
        forall j, (j < k)%nat -> length (nth j fs []) = S (nth j (degrees s) 0%nat) /\
        forall i, (i <= nth j (degrees s) 0)%nat ->
          Fb (2 * nth j (degrees s) 0%nat + 3) (bern_loss (nth j (degrees s) 0%nat)) (nth i (nth j fs []) Exc) (bernstein (nth j (degrees s) 0%nat) i (nth j xs 0))))
        as (fs & E' & HL' & HN).
      3:{ exists fs. split; [exact E'|]. split; auto. }
      - rewrite repeat_length. split; auto. intros; lia.
      - intros k fs Hk (HL' & HN). rewrite (get_ok 0%nat) by lia. cbn [bind]. rewrite (get_ok (Fin 0)) by (rewrite map_length; lia). cbn [bind].
        rewrite (map_nth Fin).
        destruct (Bernstein_fb MAXB (nth k (degrees s) 0%nat) (nth k xs 0)) as (b & Af & Lb & Nb); auto.
        { eapply Forall_forall in Hp; eauto. apply nth_In. lia. }
        { eapply Forall_forall in HG; eauto. apply nth_In. lia. }
        { eapply Forall_forall in HX; eauto. apply nth_In. lia. }
        rewrite Af. cbn [bind]. rewrite set_ok by lia. eexists; split; [reflexivity|]. rewrite length_upd. split; auto.
        intros j Hj. rewrite nth_upd by lia. destruct (Nat.eqb_spec j k) as [->|]; auto. apply HN. lia. }
    destruct C as (fs' & EC & LC & NC). rewrite EC. cbn [bind]. unfold RecursiveCombine.
    rewrite LC, (length_map2 bern_list) by lia.
    assert (D0 : (0 < length (degrees s))%nat) by (destruct Hw as (D & _); destruct (degrees s); [congruence|simpl; lia]).
    set (h := fun i => bern_loss (nth i (degrees s) 0%nat)).
    assert (BL : forall q, 0 <= bern_loss q).
    { intros q. unfold bern_loss. apply Rmult_le_pos; [|lra]. apply Rmult_le_pos; [apply pos_INR|apply pow_le; lra]. }
    apply (Combine_fb (fun i => 2 * nth i (degrees s) 0 + 3)%nat h) with (m := 0%nat) (e := 0).
    - intros i. apply BL.
    - intros i. destruct (lt_dec i (length (degrees s))) as [Hi|Hi].
      2:{ rewrite !get_ub; [simpl; auto|rewrite (length_map2 bern_list); lia|lia]. }
      rewrite (get_ok []) by lia. rewrite (get_ok []) by (rewrite (length_map2 bern_list); lia). simpl.
      rewrite (nth_map2 _ _ _ _ 0%nat 0) by lia. destruct (NC i Hi) as (Li & Ni).
      assert (FF : forall (l : list R) (l' : list fl) k e, length l' = length l -> (forall j, (j < length l)%nat -> Fb1 k e (nth j l' Exc) (nth j l 0)) -> Forall2 (Fb1 k e) l' l).
      { induction l as [|a l IH]; intros [|a' l'] k e HLL HH; try discriminate; constructor.
        - apply (HH 0%nat). simpl; lia.
        - apply IH; auto. intros j Hj. apply (HH (S j)). simpl; lia. }
      apply FF; [rewrite length_bern_list; auto|]. rewrite length_bern_list. intros j Hj. 
      replace (nth j (bern_list (nth i (degrees s) 0%nat) (nth i xs 0)) 0) with (bernstein (nth i (degrees s) 0%nat) j (nth i xs 0))
        by (symmetry; apply (nth_bern_list (o := SOps_R)); lia).
      split.
      + apply bernstein_le_1; [|lia]. eapply Forall_forall in HX; eauto. apply nth_In. lia.
      + apply Ni. lia.
    - exact HO2.
    - constructor.
    - lra.
    - split; [cbn; lra|]. exists 1. split; [reflexivity|]. split; [apply grid_1; auto|]. split; [lra|]. split; [cbn; lra|]. apply Bd_exact. lra.
    - unfold basis_roundings. rewrite (map_seq_nth _ 0%nat (degrees s)). replace (S (length (degrees s) - 1)) with (length (degrees s)) by lia.
      apply Nat.eq_le_incl. simpl plus. f_equal. apply map_ext. intros. lia.
    - replace (S (length (degrees s) - 1)) with (length (degrees s)) by lia. rewrite Rplus_0_r, Rmult_1_l.
      eapply Rle_trans; [apply (lossp_basis (degrees s) h); [|lia]|].
      + intros i Hi. split; [apply BL|apply Rle_refl].
      + rewrite firstn_all. unfold basis_loss. fold t. lra. }
  rewrite E in R. destruct (BasisFunctions (o := oi) MAXB s (map Fin xs)) as [l'| | | | |]; try contradiction. exists l'. split; auto.
Qed.

(** ** The accumulation loop *)
Definition Af (k : nat) (e y x m : R) : Prop := Rabs (y - x) <= ((1 + u) ^ k - 1) * m + (1 + u) ^ k * e.
Lemma Af_le k n e e' y x m : (k <= n)%nat -> 0 <= e <= e' -> 0 <= m -> Af k e y x m -> Af n e' y x m.
Proof using Hu.
  intros Hk He Hm H. unfold Af in *. pose proof (U_le k n Hk). pose proof (U_1 k). eapply Rle_trans; [exact H|].
  apply Rplus_le_compat; [nra|]. apply Rmult_le_compat; lra.
Qed.
Lemma Af_upper k e y x m : Rabs x <= m -> Af k e y x m -> Rabs y <= (1 + u) ^ k * (m + e).
Proof.
  intros Hx H. unfold Af in H. replace y with ((y - x) + x) by ring. eapply Rle_trans; [apply Rabs_triang|]. lra.
Qed.
Lemma Af_rnd k e z x m : Rabs x <= m -> Rabs (rnd z - z) <= u * Rabs z -> Af k e z x m -> Af (k + 1) e (rnd z) x m.
Proof using Hu.
  intros Hx E H. pose proof (Af_upper _ _ _ _ _ Hx H) as HU. unfold Af in *.
  replace (rnd z - x) with ((rnd z - z) + (z - x)) by ring. eapply Rle_trans; [apply Rabs_triang|].
  rewrite pow_add, pow_1. assert (u * Rabs z <= u * ((1 + u) ^ k * (m + e))) by (apply Rmult_le_compat_l; auto). lra.
Qed.
Lemma Af_rnd_tiny k e z x m : 0 <= e -> Rabs x <= m -> Af k e z x m -> Af (k + 1) (e + t) (rnd z) x m.
Proof using HF HR Hu.
  intros He Hx H. pose proof (Af_upper _ _ _ _ _ Hx H) as HU. unfold Af in *.
  pose proof (rnd_error F HF rnd HR z) as E. fold u t in E.
  replace (rnd z - x) with ((rnd z - z) + (z - x)) by ring. eapply Rle_trans; [apply Rabs_triang|].
  rewrite pow_add, pow_1. assert (u * Rabs z <= u * ((1 + u) ^ k * (m + e))) by (apply Rmult_le_compat_l; auto).
  pose proof (U_1 k). pose proof tpos. set (A := (1 + u) ^ k) in *. assert (1 <= A * (1 + u)) by nra.
  assert (1 * t <= A * (1 + u) * t) by (apply Rmult_le_compat_r; lra). lra.
Qed.
Lemma Af_add k e e' y y' x x' m m' : Af k e y x m -> Af k e' y' x' m' -> Af k (e + e') (y + y') (x + x') (m + m').
Proof.
  unfold Af. intros H H'. replace (y + y' - (x + x')) with ((y - x) + (y' - x')) by ring.
  eapply Rle_trans; [apply Rabs_triang|]. lra.
Qed.
Lemma Accumulate_fb K L (b : nat -> R) (b' : nat -> fl) (c : nat -> R) N : 0 <= L ->
  (forall i, (i < N)%nat -> Fb1 K L (b' i) (b i)) -> (forall i, (i < N)%nat -> machine F (c i)) ->
  (1 + u) ^ (K + N) * (ssum N (fun i => b i * Rabs (c i)) + (L * ssum N (fun i => Rabs (c i)) + INR N * t)) <= omega F ->
  forall n, (n <= N)%nat -> exists z, vsum (ov := VOps_scalar fl (o := oi)) n (fun i => smul (SOps := oi) (b' i) (Fin (c i))) = Fin z /\
    machine F z /\
    Af (K + n) (L * ssum n (fun i => Rabs (c i)) + INR n * t) z (ssum n (fun i => b i * c i)) (ssum n (fun i => b i * Rabs (c i))).
Proof using HF HR Hu.
  intros HL Hb Hc HO. pose proof tpos as Ht. pose proof (omega_pos F HF) as PO.
  assert (B0 : forall i, (i < N)%nat -> 0 <= b i) by (intros i Hi; destruct (Hb i Hi) as (_ & y & _ & _ & _ & H & _); auto).
  assert (S1 : forall n, (n <= N)%nat -> 0 <= ssum n (fun i => b i * Rabs (c i)) <= ssum N (fun i => b i * Rabs (c i))).
  { intros n Hn. apply ssum_R_mono; auto. intros i Hi. apply Rmult_le_pos; auto. apply Rabs_pos. }
  assert (S2 : forall n, (n <= N)%nat -> 0 <= ssum n (fun i => Rabs (c i)) <= ssum N (fun i => Rabs (c i))).
  { intros n Hn. apply ssum_R_mono; auto. intros i Hi. apply Rabs_pos. }
  assert (S3 : forall n, (n <= N)%nat -> Rabs (ssum n (fun i => b i * c i)) <= ssum n (fun i => b i * Rabs (c i))).
  { induction n; intros Hn; cbn [ssum s0 sadd SOps_R]; [change R0 with 0; rewrite Rabs_R0; lra|]. eapply Rle_trans; [apply Rabs_triang|].
    apply Rplus_le_compat; [apply IHn; lia|]. rewrite Rabs_mult, (Rabs_right (b n)); [apply Rle_refl|]. apply Rle_ge, B0. lia. }
  assert (FIN : forall n k e z x m, (n <= N)%nat -> (k <= K + n)%nat -> Rabs x <= m -> 0 <= e -> 0 <= m <= ssum n (fun i => b i * Rabs (c i)) ->
     e <= L * ssum n (fun i => Rabs (c i)) + INR n * t -> Af k e z x m -> Rabs z <= omega F).
  { intros n k e z x m Hn Hk Hx He Hm He2 H. eapply Rle_trans; [apply (Af_upper k e z x m Hx H)|]. eapply Rle_trans; [|exact HO].
    specialize (S1 n Hn). specialize (S2 n Hn). assert (INR n <= INR N) by (apply le_INR; lia).
    apply Rmult_le_compat; [apply Rle_trans with 1; [lra|apply U_1]|lra|apply U_le; lia|].
    apply Rplus_le_compat; [lra|]. eapply Rle_trans; [exact He2|]. apply Rplus_le_compat; [apply Rmult_le_compat_l; lra|apply Rmult_le_compat_r; lra]. }
  induction n as [|n IH]; intros Hn.
  - exists 0. split; [reflexivity|]. split; [split; [apply grid_0|rewrite Rabs_R0; lra]|].
    unfold Af. cbn [ssum s0 SOps_R]. change R0 with 0. rewrite Rminus_0_r, Rabs_R0. simpl. lra.
  - destruct (IH ltac:(lia)) as (z & Ez & (Gz & Bz) & Hz). clear IH.
    destruct (Hb n ltac:(lia)) as (X1 & y & Ey & Gy & Y0 & X0 & By).
    pose proof (S1 n ltac:(lia)) as S1n. pose proof (S2 n ltac:(lia)) as S2n. pose proof (S3 n ltac:(lia)) as S3n. pose proof (Rabs_pos (c n)) as Pc.
    assert (AB : Rabs (b n * c n) <= b n * Rabs (c n)) by (rewrite Rabs_mult, (Rabs_right (b n)) by lra; apply Rle_refl).
    assert (BC : 0 <= b n * Rabs (c n)) by nra.
    assert (LC : 0 <= L * Rabs (c n)) by nra.
    assert (LS : 0 <= L * ssum n (fun i => Rabs (c i))) by nra.
    assert (IN : 0 <= INR n * t) by (apply Rmult_le_pos; [apply pos_INR|lra]).
    assert (ET : Af (K + 1) (L * Rabs (c n) + t) (rnd (y * c n)) (b n * c n) (b n * Rabs (c n))).
    { apply Af_rnd_tiny; auto. unfold Af, Bd in *. rewrite <- Rmult_minus_distr_r, Rabs_mult.
      apply Rle_trans with ((((1 + u) ^ K - 1) * b n + (1 + u) ^ K * L) * Rabs (c n)); [apply Rmult_le_compat_r; auto|lra]. }
    set (T := rnd (y * c n)) in *.
    assert (sS : forall f : nat -> R, ssum (S n) f = ssum n f + f n) by reflexivity.
    assert (BT : Rabs T <= omega F).
    { apply (FIN (S n) (K + 1)%nat (L * Rabs (c n) + t) T (b n * c n) (b n * Rabs (c n))); auto; try lia; try lra; rewrite ?sS, ?S_INR; lra. }
    assert (EN : Af (K + S n) (L * ssum (S n) (fun i => Rabs (c i)) + INR (S n) * t) (rnd (z + T)) (ssum (S n) (fun i => b i * c i)) (ssum (S n) (fun i => b i * Rabs (c i)))).
    { rewrite !sS, S_INR. destruct n as [|n'].
      - cbn [vsum v0 VOps_scalar s0 SOps_ieee] in Ez. injection Ez as <-. cbn [ssum s0 SOps_R]. change R0 with 0. rewrite !Rplus_0_l, (rnd_id F rnd HR) by apply HR.
        rewrite (Rmult_1_l t). exact ET.
      - set (n := S n') in *. replace (K + S n)%nat with (K + n + 1)%nat by lia.
        apply Af_rnd.
        + eapply Rle_trans; [apply Rabs_triang|]. lra.
        + pose proof (rnd_error_sum F HF rnd HR z T Gz ltac:(apply HR)) as E. exact E.
        + replace (L * (ssum n (fun i => Rabs (c i)) + Rabs (c n)) + (INR n + 1) * t) with ((L * ssum n (fun i => Rabs (c i)) + INR n * t) + (L * Rabs (c n) + t)) by ring.
          apply Af_add; auto. eapply Af_le; [| | |exact ET]; [lia|lra|auto]. }
    assert (BN : Rabs (rnd (z + T)) <= omega F).
    { eapply (FIN (S n)); [lia| | | | | |exact EN]; [lia|apply S3; lia| |split; [apply S1; lia|apply Rle_refl]|apply Rle_refl].
      rewrite sS, S_INR. lra. }
    exists (rnd (z + T)). split; [|split; [split; [apply HR|exact BN]|exact EN]].
    cbn [vsum vadd VOps_scalar]. rewrite Ez, Ey. cbn [smul sadd SOps_ieee fl_lift2]. rewrite (deliver_ok F rnd (y * c n)) by exact BT.
    cbn [fl_lift2]. apply deliver_ok. exact BN.
Qed.
End IEEE.
