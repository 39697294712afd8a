(** Claims about AlgoDiffType (C50-C52). *)
From Coq Require Import Arith Lia List Bool ZArith Reals Lra.
From Verif Require Import Prelude ModelAD SpecAD ProofAD.
Import ListNotations.
Local Open Scope R_scope.

(** [a] holds the value of [f] at [xs] and its partial derivatives. *)
Definition exact (xs : list R) (f : list R -> R) (a : adt R) : Prop :=
  ad_v a = f xs /\ length (ad_d a) = length xs /\
  forall i, (i < length xs)%nat ->
    derivable_pt_lim (fun y => f (upd_list xs i y)) (nth i xs 0) (nth i (ad_d a) 0).

Lemma upd_same (xs : list R) i : upd_list xs i (nth i xs 0) = xs.
Proof. revert i; induction xs; intros [|i]; simpl; auto. now rewrite IHxs. Qed.

Lemma exact_input xs i : (i < length xs)%nat ->
  exists a, AD_input (length xs) (nth i xs 0) i = Ok a /\ exact xs (fun xs => nth i xs 0) a.
Proof.
  intros Hi. unfold AD_input. rewrite repeat_length. rewrite (proj2 (Nat.ltb_lt i _)) by auto. cbn [bind assert_].
  rewrite set_ok by (rewrite repeat_length; auto). cbn [bind]. eexists. split; [reflexivity|].
  split; [reflexivity|]. cbn [ad_d]. rewrite length_upd, repeat_length. split; auto. intros k Hk.
  rewrite nth_upd by (rewrite repeat_length; auto). destruct (Nat.eqb_spec k i) as [->|Hne].
  - apply (dl_ext (fun y => y)); [intros y; now rewrite nth_upd_same|apply dl_id].
  - rewrite nth_repeat. apply (dl_ext (fun _ => nth i xs 0)); [intros y; now rewrite nth_upd_other by auto|].
    apply dl_const.
Qed.

Lemma exact_constant xs c : exact xs (fun _ => c) (AD_constant (length xs) c).
Proof.
  split; [reflexivity|]. cbn [ad_d AD_constant]. rewrite repeat_length. split; auto. intros k Hk. rewrite nth_repeat. apply dl_const.
Qed.

(** Applying a function of one variable. *)
Lemma exact_comp xs f a (g : R -> R) l : exact xs f a -> derivable_pt_lim g (f xs) l ->
  exact xs (fun xs => g (f xs)) (mkADT (g (ad_v a)) (map (fun x => x * l) (ad_d a))).
Proof.
  intros (HV & HL & HD) HG. split; [cbn; now rewrite HV|]. cbn [ad_d]. rewrite map_length. split; auto. intros k Hk.
  rewrite (nth_indep (map _ _) 0 (0 * l)) by (rewrite map_length; lia). rewrite (map_nth (fun x => x * l)).
  eapply dl_eq; [|apply dl_comp; [apply HD; auto|]]; [apply Rmult_comm|]. rewrite upd_same. exact HG.
Qed.

Lemma exact_un xs f a u : exact xs f a -> un_dom u (f xs) ->
  exists r, un_ad u a = Ok r /\ exact xs (fun xs => un_value u (f xs)) r.
Proof.
  intros HE HD. pose proof HE as (HV & _). destruct a as (v & d). simpl in HV. subst v. eexists.
  split; [apply un_ad_ok; auto|]. apply (exact_comp xs f (mkADT (f xs) d) (un_value u)); auto. apply un_dlim. auto.
Qed.
Lemma exact_mix xs f a m s : exact xs f a -> mix_dom' m (f xs) s ->
  exists r, mix_ad m a s = Ok r /\ exact xs (fun xs => mix_value m (f xs) s) r.
Proof.
  intros HE HD. pose proof HE as (HV & _). destruct a as (v & d). simpl in HV. subst v. eexists.
  split; [apply mix_ad_ok; auto|]. apply (exact_comp xs f (mkADT (f xs) d) (fun x => mix_value m x s)); auto. apply mix_dlim. auto.
Qed.

Lemma exact_ext xs f f' a : (forall xs, f xs = f' xs) -> exact xs f a -> exact xs f' a.
Proof.
  intros HF (HV & HL & HD). split; [now rewrite <- HF|]. split; auto. intros k Hk.
  apply (dl_ext (fun y => f (upd_list xs k y))); auto.
Qed.

Lemma exact_mul xs f g a b : exact xs f a -> exact xs g b ->
  exists r, AD_mul a b = Ok r /\ exact xs (fun xs => f xs * g xs) r.
Proof.
  intros (HV & HL & HD) (HV' & HL' & HD'). unfold AD_mul, AD_mul_assign, same_number.
  rewrite HL, HL', Nat.eqb_refl. cbn [bind assert_]. step.
  destruct (each2_ok (fun x z => Ok (z * ad_v a + ad_v b * x)) (fun x z => z * ad_v a + ad_v b * x) (ad_d a) (ad_d b))
    as (r & E & HLr & HN); auto; [congruence|]. rewrite E. cbn [bind]. eexists. split; [reflexivity|].
  split; [cbn; congruence|]. cbn [ad_d]. split; [congruence|]. intros k Hk. rewrite HN by lia. rewrite HV, HV'.
  eapply dl_eq; [|apply (dl_mult _ _ _ _ _ (HD k Hk) (HD' k Hk))]. rewrite !upd_same. ring.
Qed.

Lemma exact_bin xs f g a b o : exact xs f a -> exact xs g b -> bin_dom o (f xs) (g xs) ->
  exists r, bin_ad o a b = Ok r /\ exact xs (fun xs => bin_value o (f xs) (g xs)) r.
Proof.
  intros HA HB. pose proof HA as (HV & HL & HD). pose proof HB as (HV' & HL' & HD').
  destruct o; simpl bin_dom; intros HO.
  - simpl bin_ad. unfold AD_add, AD_add_assign, same_number. rewrite HL, HL', Nat.eqb_refl. cbn [bind assert_]. step.
    destruct (each2_ok (fun x z => Ok (x + z)) Rplus (ad_d a) (ad_d b)) as (r & E & HLr & HN); auto; [congruence|].
    rewrite E. cbn [bind]. eexists. split; [reflexivity|]. split; [cbn; congruence|]. cbn [ad_d]. split; [congruence|].
    intros k Hk. rewrite HN by lia. apply (dl_plus _ _ _ _ _ (HD k Hk) (HD' k Hk)).
  - simpl bin_ad. unfold AD_sub, AD_sub_assign, same_number. rewrite HL, HL', Nat.eqb_refl. cbn [bind assert_]. step.
    destruct (each2_ok (fun x z => Ok (x - z)) Rminus (ad_d a) (ad_d b)) as (r & E & HLr & HN); auto; [congruence|].
    rewrite E. cbn [bind]. eexists. split; [reflexivity|]. split; [cbn; congruence|]. cbn [ad_d]. split; [congruence|].
    intros k Hk. rewrite HN by lia. apply (dl_minus _ _ _ _ _ (HD k Hk) (HD' k Hk)).
  - apply exact_mul; auto.
  - simpl bin_ad. unfold AD_div, AD_div_assign, same_number. rewrite HL, HL', Nat.eqb_refl. cbn [bind assert_]. step.
    rewrite HV'. rewrite fdiv_ok by (apply Rmult_integral_contrapositive; auto). step.
    destruct (each2_ok (fun x z => Ok ((g xs * x - z * ad_v a) * (1 / (g xs * g xs))))
      (fun x z => (g xs * x - z * ad_v a) * (1 / (g xs * g xs))) (ad_d a) (ad_d b)) as (r & E & HLr & HN); auto; [congruence|].
    rewrite E. cbn [bind]. rewrite fdiv_ok by auto. cbn [bind]. eexists. split; [reflexivity|]. split; [cbn; congruence|].
    cbn [ad_d]. split; [congruence|]. intros k Hk. rewrite HN by lia. rewrite HV.
    eapply dl_eq; [|apply (dl_div (fun y => f (upd_list xs k y)) (fun y => g (upd_list xs k y)) _ _ _ ltac:(cbv beta; rewrite upd_same; exact HO) (HD k Hk) (HD' k Hk))].
    rewrite !upd_same. unfold Rsqr. field. auto.
  - destruct (exact_un xs f a ULog HA HO) as (l & El & HEl). simpl un_ad in El.
    destruct (exact_mul xs _ _ l b HEl HB) as (m & Em & HEm).
    destruct (exact_un xs _ m UExp HEm I) as (r & Er & HEr). simpl un_ad in Er.
    simpl bin_ad. unfold AD_pow. rewrite El. cbn [bind]. rewrite Em. cbn [bind]. exists r. split; auto.
    eapply exact_ext; [|exact HEr]. intros ys. simpl. f_equal. ring.
Qed.

Lemma c50_exact_partial : forall (e : expr) (xs : list R),
  differentiable e xs -> no_zero_pow_zero e xs ->
  exists a, compute e xs = Ok a /\ ad_v a = value e xs /\ length (ad_d a) = length xs /\
    forall i, (i < length xs)%nat ->
      derivable_pt_lim (fun y => value e (upd_list xs i y)) (nth i xs 0) (nth i (ad_d a) 0).
Proof.
  intros e xs HD HZ. cut (exists a, compute e xs = Ok a /\ exact xs (value e) a).
  { intros (a & E & HE). exists a. split; auto. }
  induction e as [i|c|u e IH|b e1 IH1 e2 IH2|m e IH s]; simpl in *.
  - apply exact_input. auto.
  - eexists. split; [reflexivity|]. apply exact_constant.
  - destruct HD as (HD & HU). destruct (IH HD HZ) as (a & -> & HA). cbn [bind]. apply exact_un; auto.
  - destruct HD as (HD1 & HD2 & HU). destruct HZ as (HZ1 & HZ2).
    destruct (IH1 HD1 HZ1) as (a & -> & HA). destruct (IH2 HD2 HZ2) as (c & -> & HC). cbn [bind]. apply exact_bin; auto.
  - destruct HD as (HD & HU). destruct HZ as (HZ & HP). destruct (IH HD HZ) as (a & -> & HA). cbn [bind]. apply exact_mix; auto.
    split; auto.
Qed.

(** x^0 at x = 0 is computed as 0 * (1 / 0). *)
Lemma c50_zero_pow_zero_refuted : exists (e : expr) (xs : list R),
  differentiable e xs /\ compute e xs = NonFinite /\
  value e xs = 1 /\ derivable_pt_lim (fun y => value e (upd_list xs 0 y)) (nth 0 xs 0) 0.
Proof.
  exists (EMix RPow (EVar 0) 0), [0]. simpl.
  assert (H1 : forall x, real_pow x 0 = 1) by (intros x; exact (real_pow_int x 0)).
  split; [split; [lia|]|split; [|split; [apply H1|]]].
  - right. exists 0%Z. split; [reflexivity|]. right. lia.
  - unfold AD_input. cbn. unfold AD_pow_scalar. cbn [ad_v ad_d]. step. unfold std_pow.
    rewrite gtb_false by lra. rewrite is_zero_true. rewrite is_zero_false by lra. rewrite gtb_false by lra. reflexivity.
  - apply (dl_ext (fun _ => 1)); [intros y; symmetry; apply H1|]. apply dl_const.
Qed.

(** ** C51 *)
Lemma gtb_iff x y : gtb x y = true <-> y < x.
Proof. unfold gtb. destruct (Rlt_dec y x); split; auto; discriminate. Qed.
Lemma geb_iff x y : geb x y = true <-> y <= x.
Proof. unfold geb. destruct (Rle_dec y x); split; auto; discriminate. Qed.
Lemma eqb_iff x y : eqb x y = true <-> x = y.
Proof. unfold eqb. destruct (Req_EM_T x y); split; auto; discriminate. Qed.
Lemma neqb_iff x y : negb (eqb x y) = true <-> x <> y.
Proof. rewrite negb_true_iff. pose proof (eqb_iff x y). destruct (eqb x y) eqn:E; split; intros H1.
  - discriminate.
  - exfalso. apply H1, H. reflexivity.
  - intros H2. apply H in H2. discriminate.
  - reflexivity.
Qed.

Lemma c51_comparisons : forall (a b : adt R) (s : R),
  (AD_lt a b = true <-> ad_v a < ad_v b) /\ (AD_le a b = true <-> ad_v a <= ad_v b) /\
  (AD_gt a b = true <-> ad_v a > ad_v b) /\ (AD_ge a b = true <-> ad_v a >= ad_v b) /\
  (AD_eq a b = true <-> ad_v a = ad_v b) /\ (AD_ne a b = true <-> ad_v a <> ad_v b) /\
  (AD_lt_s a s = true <-> ad_v a < s) /\ (AD_le_s a s = true <-> ad_v a <= s) /\
  (AD_gt_s a s = true <-> ad_v a > s) /\ (AD_ge_s a s = true <-> ad_v a >= s) /\
  (AD_eq_s a s = true <-> ad_v a = s) /\ (AD_ne_s a s = true <-> ad_v a <> s) /\
  (s_lt_AD s a = true <-> s < ad_v a) /\ (s_le_AD s a = true <-> s <= ad_v a) /\
  (s_gt_AD s a = true <-> s > ad_v a) /\ (s_ge_AD s a = true <-> s >= ad_v a) /\
  (s_eq_AD s a = true <-> s = ad_v a) /\ (s_ne_AD s a = true <-> s <> ad_v a).
Proof.
  intros a b s.
  repeat split; unfold AD_lt, AD_le, AD_gt, AD_ge, AD_eq, AD_ne, s_lt_AD, s_le_AD, s_gt_AD, s_ge_AD, s_eq_AD, s_ne_AD,
    AD_lt_s, AD_le_s, AD_gt_s, AD_ge_s, AD_eq_s, AD_ne_s;
  rewrite ?gtb_iff, ?geb_iff, ?eqb_iff, ?neqb_iff; intros; auto; lra.
Qed.

Lemma c51_coherent : forall (a b : adt R) (s : R),
  AD_ne a b = negb (AD_eq a b) /\ AD_ge a b = negb (AD_lt a b) /\ AD_le a b = negb (AD_gt a b) /\
  AD_ne_s a s = negb (AD_eq_s a s) /\ AD_ge_s a s = negb (AD_lt_s a s) /\ AD_le_s a s = negb (AD_gt_s a s) /\
  s_ne_AD s a = negb (s_eq_AD s a) /\ s_ge_AD s a = negb (s_lt_AD s a) /\ s_le_AD s a = negb (s_gt_AD s a).
Proof.
  intros a b s.
  assert (HE : forall p q : bool, (p = true <-> ~ q = true) -> p = negb q).
  { intros p q (H1 & H2). destruct q; simpl; [|apply H2; discriminate]. destruct p; auto. exfalso. apply H1; auto. }
  pose proof (c51_comparisons a b s) as H. decompose [and] H. clear H.
  repeat split; apply HE;
  repeat match goal with H : ?x = true <-> _ |- context[?x = true] => rewrite H end; split; intros; lra.
Qed.

(** ** C52 *)
Lemma c52_nested_acos_refuted :
  exists x r : adt (adt R), AD_input (os := ADScalar_nested 1) 1 (AD_constant 1 0) 0 = Ok x /\
    AD_acos (os := ADScalar_nested 1) x = Ok r /\
    ad_v (ad_v r) = cos 0 /\ ad_v (ad_v r) <> acos (ad_v (ad_v x)).
Proof.
  eexists. eexists. split; [reflexivity|]. split.
  - unfold AD_acos. cbn [ad_v ad_d]. cbn. unfold each2, each. cbn.
    unfold AD_sqrt. cbn. replace (- (0 * 0) + 1) with 1 by ring. unfold std_sqrt.
    rewrite geb_true by lra. cbn. rewrite sqrt_1. rewrite fdiv_ok by lra. cbn.
    unfold scalar_div. cbn. rewrite fdiv_ok by lra. cbn. reflexivity.
  - cbn. split; [reflexivity|]. rewrite cos_0, acos_0. pose proof PI_RGT_0. pose proof PI2_3_2. unfold PI2 in *. lra.
Qed.
