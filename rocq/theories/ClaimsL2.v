(** Property C50, continued: which expressions are computed. *)
From Coq Require Import Arith Lia List ZArith Bool Reals Lra.
From Verif Require Import Prelude ModelAD SpecAD ProofAD ClaimsL.
Import ListNotations.
Local Open Scope R_scope.

Lemma fdiv_inv x y r : fdiv x y = Ok r -> y <> 0.
Proof. unfold fdiv, is_zero. destruct (Req_EM_T y 0); congruence. Qed.
Lemma sqrt_inv x r : std_sqrt x = Ok r -> 0 <= x /\ r = sqrt x.
Proof. unfold std_sqrt, geb. destruct (Rle_dec 0 x); intros H; [injection H as <-; auto|discriminate]. Qed.
Lemma root_inv x r y z : std_sqrt x = Ok r -> fdiv y r = Ok z -> 0 < x.
Proof.
  intros H D. apply sqrt_inv in H. destruct H as (H & ->). apply fdiv_inv in D. destruct H; auto. subst. rewrite sqrt_0 in D. congruence.
Qed.
Lemma un_ad_dom u (a r : adt R) : un_ad u a = Ok r -> (u = UAbs -> ad_v a <> 0) -> un_dom u (ad_v a).
Proof.
  destruct u; simpl un_dom; intros E HA; auto; cbn [un_ad] in E.
  - unfold AD_log in E. apply bind_ok in E. destruct E as (t & E1 & E). apply bind_ok in E. destruct E as (v & E2 & _).
    cbn [a_log ADScalar_R] in E2. unfold std_log, gtb in E2. destruct (Rlt_dec 0 (ad_v a)); auto. discriminate.
  - unfold AD_log10 in E. apply bind_ok in E. destruct E as (m & _ & E). apply bind_ok in E. destruct E as (t & E1 & E). apply bind_ok in E. destruct E as (v & E2 & _).
    cbn [a_log10 ADScalar_R] in E2. unfold std_log10, gtb in E2. destruct (Rlt_dec 0 (ad_v a)); auto. discriminate.
  - unfold AD_sqrt in E. apply bind_ok in E. destruct E as (t & E1 & E). apply bind_ok in E. destruct E as (v & E2 & _).
    apply (root_inv _ _ _ _ E1 E2).
  - unfold AD_tan in E. apply bind_ok in E. destruct E as (t & E1 & E). apply bind_ok in E. destruct E as (v & E2 & _).
    cbn [a_cos ADScalar_R] in E1. injection E1 as <-. apply (fdiv_inv _ _ _ E2).
  - unfold AD_asin in E. step; cbn [bind] in E. apply bind_ok in E. destruct E as (t & E1 & E). apply bind_ok in E. destruct E as (v & E2 & E).
    apply bind_ok in E. destruct E as (r0 & E3 & E). apply bind_ok in E. destruct E as (v0 & E4 & _).
    cbn [a_mul a_sub_l ADScalar_R] in E1, E2. injection E1 as <-. injection E2 as <-. pose proof (root_inv _ _ _ _ E3 E4) as H.
    split; apply Rnot_le_lt; intros C; nra.
  - unfold AD_acos in E. apply bind_ok in E. destruct E as (t & E1 & E). apply bind_ok in E. destruct E as (v & E2 & E).
    apply bind_ok in E. destruct E as (r0 & E3 & E). apply bind_ok in E. destruct E as (v0 & E4 & _).
    cbn [a_mul a_sub_l ADScalar_R] in E1, E2. injection E1 as <-. injection E2 as <-. pose proof (root_inv _ _ _ _ E3 E4) as H.
    split; apply Rnot_le_lt; intros C; nra.
Qed.
Lemma bin_ad_dom b (a c r : adt R) : bin_ad b a c = Ok r -> bin_dom b (ad_v a) (ad_v c).
Proof.
  destruct b; simpl bin_dom; intros E; auto; cbn [bin_ad] in E.
  - unfold AD_div, AD_div_assign in E. apply bind_ok in E. destruct E as (t & _ & E). apply bind_ok in E. destruct E as (sq & E1 & E).
    apply bind_ok in E. destruct E as (iv & E2 & _). cbn [a_mul ADScalar_R] in E1. injection E1 as <-. apply fdiv_inv in E2. intros Z. rewrite Z in E2. lra.
  - unfold AD_pow in E. apply bind_ok in E. destruct E as (l & E1 & _). exact (un_ad_dom ULog a l E1 ltac:(discriminate)).
Qed.
Lemma mix_ad_dom m (a r : adt R) s : mix_ad m a s = Ok r -> (m = RPow -> ad_v a <> 0 \/ exists k : Z, s = IZR k) ->
  mix_dom m (ad_v a) s /\ (m = RPow -> ad_v a <> 0 \/ s <> 0).
Proof.
  destruct m; simpl mix_dom; intros E HA; (split; [|intros; try discriminate]); auto; cbn [mix_ad] in E.
  - unfold AD_div_scalar in E. apply bind_ok in E. destruct E as (t & E1 & _). apply (fdiv_inv _ _ _ E1).
  - unfold AD_pow_scalar in E. apply bind_ok in E. destruct E as (p1 & E1 & E). apply bind_ok in E. destruct E as (t & E2 & _).
    cbn [a_sub_r a_pow ADScalar_R] in E1, E2. injection E1 as <-. unfold std_pow, gtb, is_zero, eqb in E2.
    destruct (Rlt_dec 0 (ad_v a)); auto. right. destruct (Req_EM_T (ad_v a) 0) as [Z|Z].
    + destruct (HA eq_refl) as [H|(k & ->)]; [contradiction|]. exists k. split; auto. right.
      destruct (Req_EM_T (IZR k - 1) 0) as [Q|Q]; [apply le_IZR; lra|]. destruct (Rlt_dec 0 (IZR k - 1)); [apply le_IZR; lra|discriminate].
    + destruct (Req_EM_T (IZR (Int_part (s - 1))) (s - 1)) as [Q|Q]; [|discriminate].
      exists (Int_part (s - 1) + 1)%Z. rewrite plus_IZR. split; [lra|auto].
  - unfold AD_pow_scalar in E. apply bind_ok in E. destruct E as (p1 & E1 & E). apply bind_ok in E. destruct E as (t & E2 & _).
    cbn [a_sub_r a_pow ADScalar_R] in E1, E2. injection E1 as <-. unfold std_pow, gtb, is_zero, eqb in E2.
    destruct (Req_EM_T (ad_v a) 0) as [Z|Z]; auto. right. intros ->. rewrite Z in E2.
    destruct (Rlt_dec 0 0); [lra|]. destruct (Req_EM_T 0 0); [|lra]. destruct (Req_EM_T (0 - 1) 0); [lra|]. destruct (Rlt_dec 0 (0 - 1)); [lra|discriminate].
  - unfold scalar_div in E. apply bind_ok in E. destruct E as (n & E0 & E). apply bind_ok in E. destruct E as (sq & E1 & E).
    apply bind_ok in E. destruct E as (iv & E2 & _). cbn [a_mul ADScalar_R] in E1. injection E1 as <-. apply fdiv_inv in E2. intros Z. rewrite Z in E2. lra.
Qed.
Lemma c50_defined : forall (e : expr) (xs : list R), no_corner e xs ->
  ((exists a, compute e xs = Ok a) <-> differentiable e xs /\ no_zero_pow_zero e xs).
Proof.
  intros e xs HN. split; [|intros (HD & HZ); destruct (c50_exact_partial e xs HD HZ) as (a & E & _); eauto].
  intros (a & E). revert a E. induction e as [i|c|u e IH|b e1 IH1 e2 IH2|m e IH s]; simpl in *; intros r E.
  - split; auto. unfold AD_input in E. apply bind_ok in E. destruct E as (x & E & _).
    rewrite repeat_length in E. destruct (i <? length xs)%nat eqn:L; [apply Nat.ltb_lt; auto|discriminate].
  - auto.
  - apply bind_ok in E. destruct E as (a & E & E'). destruct HN as (HN & HA). destruct (IH HN a E) as (D & Z).
    destruct (c50_exact_partial e xs D Z) as (a' & Ea & V & _). rewrite E in Ea. injection Ea as <-.
    split; [split|]; auto. rewrite <- V. apply (un_ad_dom u a r E'). intros U. rewrite V. auto.
  - apply bind_ok in E. destruct E as (a & E1 & E). apply bind_ok in E. destruct E as (c & E2 & E). destruct HN as (HN1 & HN2).
    destruct (IH1 HN1 a E1) as (D1 & Z1). destruct (IH2 HN2 c E2) as (D2 & Z2).
    destruct (c50_exact_partial e1 xs D1 Z1) as (a' & Ea & V1 & _). rewrite E1 in Ea. injection Ea as <-.
    destruct (c50_exact_partial e2 xs D2 Z2) as (c' & Ec & V2 & _). rewrite E2 in Ec. injection Ec as <-.
    split; [split; [|split]|split]; auto. rewrite <- V1, <- V2. apply (bin_ad_dom b a c r E).
  - apply bind_ok in E. destruct E as (a & E & E'). destruct HN as (HN & HA). destruct (IH HN a E) as (D & Z).
    destruct (c50_exact_partial e xs D Z) as (a' & Ea & V & _). rewrite E in Ea. injection Ea as <-.
    destruct (mix_ad_dom m a r s E') as (M1 & M2); [intros U; rewrite V; auto|]. rewrite V in M1, M2. auto.
Qed.
Lemma c50_abs_corner : forall a : adt R, ad_v a = 0 ->
  exists r, AD_abs a = Ok r /\ ad_v r = 0 /\ ad_d r = map Ropp (ad_d a).
Proof.
  intros a H. unfold AD_abs. cbn. unfold gtb. rewrite H. destruct (Rlt_dec 0 0); [lra|].
  unfold AD_neg. cbn. rewrite (each_ok _ Ropp) by reflexivity. cbn. eexists. split; [reflexivity|]. cbn. split; [rewrite ?H; lra|reflexivity].
Qed.
