(** Claims about the Euclidian norm and about points with integral coordinates. *)
From Coq Require Import Arith Lia List ZArith Reals Lra Psatz.
From Verif Require Import Prelude Scalar Spec Sums Order Coord ModelPoint ClaimsB ModelNorm.
Import ListNotations.
Local Open Scope nat_scope.

Section Cauchy.
Local Open Scope R_scope.
Lemma ssum_sq_nonneg n (a : nat -> R) : 0 <= ssum n (fun k => a k * a k).
Proof.
  induction n; cbn [ssum]; [simpl; lra|]. pose proof (Rle_0_sqr (a n)) as Q. unfold Rsqr in Q. simpl in *. lra.
Qed.

Lemma cauchy n (a b : nat -> R) :
  ssum n (fun k => a k * b k) * ssum n (fun k => a k * b k) <=
  ssum n (fun k => a k * a k) * ssum n (fun k => b k * b k).
Proof.
  induction n; [simpl; lra|]. cbn [ssum].
  pose proof (ssum_sq_nonneg n a) as HA. pose proof (ssum_sq_nonneg n b) as HB.
  set (A := ssum n (fun k => a k * a k)) in *. set (B := ssum n (fun k => b k * b k)) in *.
  set (C := ssum n (fun k => a k * b k)) in *. set (x := a n). set (y := b n).
  change ((C + x * y) * (C + x * y) <= (A + x * x) * (B + y * y)).
  assert (H : Rabs (2 * C * x * y) <= Rabs (A * (y * y) + B * (x * x))).
  { apply Rsqr_le_abs_0. unfold Rsqr.
    pose proof (Rle_0_sqr (A * (y * y) - B * (x * x))) as Q. unfold Rsqr in Q.
    assert (Hxy : 0 <= (x * y) * (x * y)) by (apply Rle_0_sqr).
    assert (HM : C * C * ((x * y) * (x * y)) <= A * B * ((x * y) * (x * y))) by (apply Rmult_le_compat_r; auto).
    nra. }
  assert (HN : 0 <= A * (y * y) + B * (x * x)).
  { pose proof (Rle_0_sqr y). pose proof (Rle_0_sqr x). unfold Rsqr in *.
    apply Rplus_le_le_0_compat; apply Rmult_le_pos; auto. }
  rewrite (Rabs_pos_eq _ HN) in H. pose proof (Rle_abs (2 * C * x * y)). nra.
Qed.
End Cauchy.

Lemma sqnorm_sum {d} (p : point R d) : point_sqnorm p = Ok (ssum d (fun k => coord d p k * coord d p k))%R.
Proof.
  destruct (c58_dot R _ SField_R d p p p s0) as (E & _ & _ & E'). rewrite E'. exact E.
Qed.
Lemma norm_ok {d} (p : point R d) : point_norm p = Ok (sqrt (ssum d (fun k => coord d p k * coord d p k)%R)).
Proof. unfold point_norm. rewrite sqnorm_sum. reflexivity. Qed.
Lemma ssum_ext_R n (f g : nat -> R) : (forall k, k < n -> f k = g k) -> ssum n f = ssum n g.
Proof. intros H. induction n; [reflexivity|]. cbn [ssum]. rewrite IHn, H by auto. reflexivity. Qed.
Lemma ssum_lin n (f g : nat -> R) (x y : R) :
  ssum n (fun k => x * f k + y * g k)%R = (x * ssum n f + y * ssum n g)%R.
Proof. induction n; cbn [ssum]; [simpl; lra|]. rewrite IHn. simpl. lra. Qed.

Lemma c65_norm : forall (d : nat) (p : point R d),
  exists n, point_norm p = Ok n /\ (0 <= n)%R /\ (n * n = ssum d (fun k => coord d p k * coord d p k))%R /\
    (n = 0%R <-> p = v0).
Proof.
  intros d p. rewrite norm_ok. eexists. split; [reflexivity|]. split; [apply sqrt_pos|].
  split; [apply sqrt_sqrt, ssum_sq_nonneg|].
  destruct (c58_norm R _ SField_R SOrder_R d p) as (n & E & _ & H). rewrite sqnorm_sum in E. injection E as E.
  rewrite <- E in H. split; intros H0.
  - apply H. apply sqrt_eq_0 in H0; [exact H0|apply ssum_sq_nonneg].
  - apply H in H0. rewrite H0. apply sqrt_0.
Qed.

Lemma c65_scale : forall (d : nat) (p : point R d) (c : R),
  exists q n, point_scale p c = Ok q /\ point_norm p = Ok n /\ point_norm q = Ok (Rabs c * n)%R.
Proof.
  intros d p c. destruct (c58_point_module R _ SField_R d p p c) as (_ & _ & _ & E).
  exists (vscale c p). rewrite !norm_ok. eexists. do 2 (split; [first [exact E|reflexivity]|]). f_equal.
  rewrite <- sqrt_Rsqr_abs, <- sqrt_mult; [|apply Rle_0_sqr|apply ssum_sq_nonneg]. f_equal.
  rewrite (ssum_ext_R _ _ (fun k => Rsqr c * (coord d p k * coord d p k) + 0 * 0)%R).
  - rewrite ssum_lin. lra.
  - intros k Hk. rewrite coord_scale. unfold Rsqr. simpl. ring.
Qed.

Lemma c65_cauchy_schwarz : forall (d : nat) (p q : point R d),
  exists x m n, point_dot p q = Ok x /\ point_norm p = Ok m /\ point_norm q = Ok n /\ (Rabs x <= m * n)%R.
Proof.
  intros d p q. destruct (c58_dot R _ SField_R d p q p s0) as (E & _). rewrite E, !norm_ok.
  eexists _, _, _. do 3 (split; [reflexivity|]).
  rewrite <- sqrt_mult; [|apply ssum_sq_nonneg|apply ssum_sq_nonneg]. rewrite <- sqrt_Rsqr_abs.
  apply sqrt_le_1_alt. unfold Rsqr. apply (cauchy d (coord d p) (coord d q)).
Qed.

Lemma c65_triangle : forall (d : nat) (p q : point R d),
  exists r x m n, point_add p q = Ok r /\ point_norm p = Ok m /\ point_norm q = Ok n /\ point_norm r = Ok x /\
    (x <= m + n)%R.
Proof.
  intros d p q. destruct (c58_point_module R _ SField_R d p q 0%R) as (E & _).
  exists (vadd p q). rewrite !norm_ok. eexists _, _, _. do 4 (split; [first [exact E|reflexivity]|]).
  pose proof (ssum_sq_nonneg d (coord d p)) as HA. pose proof (ssum_sq_nonneg d (coord d q)) as HB.
  pose proof (cauchy d (coord d p) (coord d q)) as HC.
  set (A := ssum d (fun k => coord d p k * coord d p k)%R) in *.
  set (B := ssum d (fun k => coord d q k * coord d q k)%R) in *.
  set (C := ssum d (fun k => coord d p k * coord d q k)%R) in *.
  rewrite (ssum_ext_R _ _ (fun k => 1 * (1 * (coord d p k * coord d p k) + 1 * (coord d q k * coord d q k))
    + 2 * (coord d p k * coord d q k))%R).
  2:{ intros k Hk. rewrite coord_add. simpl. ring. }
  rewrite (ssum_lin d (fun k => 1 * (coord d p k * coord d p k) + 1 * (coord d q k * coord d q k))%R).
  rewrite (ssum_lin d (fun k => coord d p k * coord d p k)%R). fold A B C.
  assert (HP : (0 <= sqrt A + sqrt B)%R) by (pose proof (sqrt_pos A); pose proof (sqrt_pos B); lra).
  rewrite <- (sqrt_Rsqr _ HP). apply sqrt_le_1_alt. unfold Rsqr.
  assert (C <= sqrt A * sqrt B)%R.
  { rewrite <- sqrt_mult by auto. apply Rle_trans with (Rabs C); [apply Rle_abs|].
    rewrite <- sqrt_Rsqr_abs. apply sqrt_le_1_alt. exact HC. }
  pose proof (sqrt_sqrt A HA). pose proof (sqrt_sqrt B HB). nra.
Qed.

(** ** C66 *)
Lemma pmap_loop {d} (p : point Z d) (f : Z -> Z) :
  for_up 0 d (fun i p => do a <- pget d p i; pset d p i (f a)) p = Ok (pmap d f p).
Proof.
  assert (H : forall m (p : point Z d), m <= d ->
    exists q, for_up 0 m (fun i p => do a <- pget d p i; pset d p i (f a)) p = Ok q /\
      forall k, k < d -> nth k (plist d q) 0%Z = if k <? m then f (nth k (plist d p) 0%Z) else nth k (plist d p) 0%Z).
  { assert (PG : forall d (p : point Z d) k, k < d -> pget d p k = Ok (nth k (plist d p) 0%Z)).
    { clear. induction d; intros p k Hk; [lia|]. simpl. destruct k; auto. apply IHd. lia. }
    assert (PL : forall d (p : point Z d), length (plist d p) = d).
    { clear. induction d; intros; simpl; auto. }
    assert (PS : forall d (p : point Z d) k x, k < d ->
      exists q, pset d p k x = Ok q /\ plist d q = upd_list (plist d p) k x).
    { clear. induction d; intros p k x Hk; [lia|]. simpl. destruct k; [eexists; split; eauto|].
      destruct (IHd (snd p) k x) as (q & E & H); [lia|]. simpl. rewrite E. cbn [bind]. eexists; split; [reflexivity|].
      simpl. now rewrite H. }
    induction m; intros p0 Hm; [exists p0; split; auto|].
    destruct (IHm p0) as (q & E & Hq); [lia|]. rewrite for_up_S, E. cbn [bind]. rewrite PG by lia. cbn [bind].
    destruct (PS d q m (f (nth m (plist d q) 0%Z))) as (q' & E' & Hq'); [lia|]. exists q'. split; [exact E'|].
    intros k Hk. rewrite Hq', nth_upd by (rewrite PL; lia). destruct (k =? m) eqn:Ek.
    - apply Nat.eqb_eq in Ek. subst. rewrite Hq by lia. rewrite Nat.ltb_irrefl.
      rewrite (proj2 (Nat.ltb_lt m (S m))) by lia. auto.
    - apply Nat.eqb_neq in Ek. rewrite Hq by auto. destruct (Nat.ltb_spec k m), (Nat.ltb_spec k (S m)); auto; lia. }
  destruct (H d p (le_n d)) as (q & E & Hq). rewrite E. f_equal.
  assert (X : forall d (a b : point Z d), (forall k, k < d -> nth k (plist d a) 0%Z = nth k (plist d b) 0%Z) -> a = b).
  { clear. induction d; intros a b H; [destruct a, b; auto|]. destruct a as [a1 a2], b as [b1 b2]. f_equal.
    - apply (H 0). lia.
    - apply IHd. intros k Hk. apply (H (S k)). lia. }
  apply X. intros k Hk. rewrite Hq by auto. rewrite (proj2 (Nat.ltb_lt k d)) by auto.
  clear -Hk. revert k Hk; induction d; intros k Hk; [lia|]. simpl. destruct k; auto. apply IHd. lia.
Qed.

Lemma c66_integer_division_refuted : exists (p : point Z 2) (c : Z) q,
  (forall k, k < 2 -> (c | nth k (plist 2 p) 0)%Z) /\ zpoint_div p c = Ok q /\
  ~ (forall k, k < 2 -> (nth k (plist 2 q) 0 * c = nth k (plist 2 p) 0)%Z).
Proof.
  exists (4, (6, tt))%Z, 2%Z. eexists. split; [|split; [vm_compute; reflexivity|]].
  - intros [|[|k]] Hk; [exists 2%Z|exists 3%Z|lia]; reflexivity.
  - intros H. specialize (H 0 ltac:(lia)). vm_compute in H. discriminate.
Qed.

Lemma c66_integer_division : forall (d : nat) (p : point Z d) (c : Z),
  (c = 0%Z -> zpoint_div p c = UB) /\
  (c = 1%Z \/ c = (-1)%Z -> zpoint_div p c = Ok (pmap d (fun x => Z.quot x c) p)) /\
  ((2 <= Z.abs c)%Z -> zpoint_div p c = Ok (pconst d 0%Z)).
Proof.
  intros d p c. unfold zpoint_div, zpoint_div_assign, zpoint_scale_assign. split; [|split].
  - intros ->. reflexivity.
  - intros H. rewrite (proj2 (Z.eqb_neq c 0)) by lia. rewrite (pmap_loop p (fun a => a * Z.quot 1 c)%Z). f_equal.
    assert (E : forall x, (x * Z.quot 1 c = Z.quot x c)%Z).
    { intros x. destruct H as [->| ->].
      - change (Z.quot 1 1) with 1%Z. rewrite Z.quot_1_r. lia.
      - change (Z.quot 1 (-1)) with (-1)%Z. change (-1)%Z with (- (1))%Z at 2.
        rewrite (Z.quot_opp_r x 1) by lia. rewrite Z.quot_1_r. lia. }
    clear H. induction d; simpl; auto. rewrite E, IHd. reflexivity.
  - intros H. rewrite (proj2 (Z.eqb_neq c 0)) by lia. rewrite (pmap_loop p (fun a => a * Z.quot 1 c)%Z). f_equal.
    replace (Z.quot 1 c) with 0%Z.
    2:{ symmetry. apply Z.quot_small_iff; lia. }
    clear H. induction d; simpl; auto. rewrite Z.mul_0_r, IHd. reflexivity.
Qed.
