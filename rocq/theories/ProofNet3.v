(** The distance of the control points from the spline, in several directions. *)
From Coq Require Import Arith Lia List ZArith Bool Ring Field Reals Lra Psatz.
From Verif Require Import Prelude Scalar Spec SpecSpline Sums Coord ModelBasis ModelSpline ProofIndex ProofBasis ProofEval
  ProofElevate ProofDerivSpline ProofCasteljau ProofRaw ProofRoundOps ProofRoundEval SpecNet ProofNet ProofNet2.
Import ListNotations.
Local Open Scope R_scope.

Section Distance.
Context {V : Type} {ov : VOps R V} {M : VMod R V}.
Context (N : V -> R) (HN : seminorm N).

(** Coefficients as a function of the multi-index. *)
Fixpoint mbez (degs : list nat) (xs : list R) (G : list nat -> V) : V :=
  match degs, xs with
  | p :: degs', x :: xs' => vsum (S p) (fun j => vscale (bernstein p j x) (mbez degs' xs' (fun idx => G (j :: idx))))
  | _, _ => G []
  end.
Lemma mbez_bezier degs : forall xs (f : nat -> V), length xs = length degs -> bezier degs xs f = mbez degs xs (fun idx => f (position degs idx)).
Proof.
  induction degs as [|p degs IH]; intros [|x xs] f HL; try discriminate; [reflexivity|]. cbn [bezier mbez]. apply vsum_ext. intros j _.
  f_equal. rewrite IH by (cbn in HL; lia). reflexivity.
Qed.
Lemma mbez_distance degs : forall idx ts Ds (G : list nat -> V), valid_index degs idx -> length ts = length degs -> length Ds = length degs ->
  (forall k, (k < length degs)%nat -> INR (nth k degs 0%nat) * nth k ts 0 = INR (nth k idx 0%nat)) ->
  (forall k mi, (k < length degs)%nat -> valid_index degs mi -> (nth k mi 0 + 2 <= nth k degs 0)%nat ->
     N (d2 (fun j => G (upd_list mi k j)) (nth k mi 0%nat)) <= nth k Ds 0) ->
  N (vsub (mbez degs ts G) (G idx)) <= allowance degs idx Ds.
Proof using HN M.
  induction degs as [|p degs IH]; intros idx ts Ds G HV HT HDs Hn HD.
  - destruct idx; [|inversion HV]. destruct ts; [|discriminate]. cbn [mbez allowance]. rewrite N_sub_0 by auto. lra.
  - inversion HV as [|? i ? idx' Hi HV' E1 E2]; subst. destruct ts as [|t ts]; [discriminate|]. destruct Ds as [|D Ds]; [discriminate|].
    cbn [mbez allowance]. rewrite (sub_sub_add _ (vsum (S p) (fun j => vscale (bernstein p j t) (G (j :: idx'))))).
    eapply Rle_trans; [apply (proj1 HN)|]. rewrite Rplus_comm.
    assert (Ht : INR p * t = INR i) by exact (Hn 0%nat ltac:(cbn; lia)).
    destruct (Nat.eq_dec p 0) as [Ep|Ep].
    + (* a direction of degree 0 *)
      subst p. assert (i = 0%nat) as -> by lia. cbn [vsum]. rewrite !bernstein_0_0, !vm_1, !vm_0, N_sub_0 by auto.
      simpl (INR 0). rewrite Rmult_0_l. unfold Rdiv. rewrite !Rmult_0_l, !Rplus_0_l.
      apply (IH idx' ts Ds (fun mi => G (0%nat :: mi))); auto; cbn in *; try lia.
      * intros k Hk. apply (Hn (S k)). lia.
      * intros k mi Hk Hmi Hc. apply (HD (S k) (0%nat :: mi)); auto; [lia|constructor; auto].
    + assert (HP : 0 < INR p) by (apply lt_0_INR; lia).
      assert (Ht' : 0 <= t <= 1).
      { pose proof (pos_INR i). pose proof (le_INR _ _ Hi). split; apply (Rmult_le_reg_l (INR p)); auto; lra. }
      apply Rplus_le_compat.
      * apply (line_distance N HN p i t (fun j => G (j :: idx')) D); auto.
        intros j Hj. apply (HD 0%nat (j :: idx')); [cbn; lia|constructor; [lia|auto]|cbn; lia].
      * rewrite <- vsum_sub. rewrite (vsum_ext _ _ (fun j => vscale (bernstein p j t) (vsub (mbez degs ts (fun mi => G (j :: mi))) (G (j :: idx'))))).
        2:{ intros j _. symmetry. rewrite !vm_sub, vm_dr, vscale_opp. reflexivity. }
        eapply Rle_trans; [apply (N_sum N (seminorm_sublinear N HN) _ _ _ (fun _ => allowance degs idx' Ds))|].
        -- intros j Hj. split; [apply bernstein_nonneg'; auto|]. apply (IH idx' ts Ds (fun mi => G (j :: mi))); auto; cbn in *; try lia.
           ++ intros k Hk. apply (Hn (S k)). lia.
           ++ intros k mi Hk Hmi Hc. apply (HD (S k) (j :: mi)); auto; [lia|constructor; [lia|auto]].
        -- rewrite (ssum_ext _ _ (fun j => smul (allowance degs idx' Ds) (bernstein p j t))) by (intros; cbn; lra).
           rewrite ssum_scale, bern_sum. cbn. lra.
Qed.

Lemma allowance_coarse degs : forall idx Ds, valid_index degs idx -> Forall (fun D => 0 <= D) Ds -> allowance degs idx Ds <= weighted_sum degs Ds / 8.
Proof.
  induction degs as [|p degs IH]; intros idx Ds HV HD; [destruct idx, Ds; cbn; lra|].
  inversion HV as [|? i ? idx' Hi HV' E1 E2]; subst. destruct Ds as [|D Ds]; [cbn; lra|]. inversion HD; subst.
  cbn [allowance weighted_sum]. specialize (IH idx' Ds HV' ltac:(auto)).
  assert (X : INR i * INR (p - i) / (2 * INR p) <= INR p / 8); [|nra].
  destruct (Nat.eq_dec p 0) as [->|Hp]; [assert (i = 0%nat) as -> by lia; simpl; lra|].
  assert (HP : 0 < INR p) by (apply lt_0_INR; lia). rewrite minus_INR by auto.
  apply (Rmult_le_reg_r (INR p)); auto. replace (INR i * (INR p - INR i) / (2 * INR p) * INR p) with (INR i * (INR p - INR i) / 2) by (field; lra).
  pose proof (Rle_0_sqr (INR p - 2 * INR i)) as Q. unfold Rsqr in Q. nra.
Qed.

(** ** First differences *)
Lemma line_spread (f : nat -> V) D p : (forall j, (j + 1 <= p)%nat -> N (d1 f j) <= D) -> forall i n, (i + n <= p)%nat -> N (vsub (f (i + n)%nat) (f i)) <= INR n * D.
Proof using HN M.
  intros H i n. induction n; intros Hn; [rewrite Nat.add_0_r, N_sub_0 by auto; simpl; lra|].
  rewrite (sub_sub_add _ (f (i + n)%nat)). eapply Rle_trans; [apply (proj1 HN)|]. rewrite S_INR.
  specialize (H (i + n)%nat ltac:(lia)). unfold d1 in H. replace (i + S n)%nat with (i + n + 1)%nat by lia. specialize (IHn ltac:(lia)). lra.
Qed.
Lemma line_spread2 (f : nat -> V) D p i i' : 0 <= D -> (forall j, (j + 1 <= p)%nat -> N (d1 f j) <= D) -> (i <= p)%nat -> (i' <= p)%nat ->
  N (vsub (f i) (f i')) <= INR p * D.
Proof using HN M.
  intros HD H Hi Hi'. destruct (le_lt_dec i' i) as [L|L].
  - pose proof (line_spread f D p H i' (i - i') ltac:(lia)) as X. replace (i' + (i - i'))%nat with i in X by lia.
    eapply Rle_trans; [exact X|]. apply Rmult_le_compat_r; auto. apply le_INR. lia.
  - rewrite N_swap by auto. pose proof (line_spread f D p H i (i' - i) ltac:(lia)) as X. replace (i + (i' - i))%nat with i' in X by lia.
    eapply Rle_trans; [exact X|]. apply Rmult_le_compat_r; auto. apply le_INR. lia.
Qed.
Lemma net_spread degs : forall idx idx' Ds (G : list nat -> V), valid_index degs idx -> valid_index degs idx' -> length Ds = length degs -> Forall (fun D => 0 <= D) Ds ->
  (forall k mi, (k < length degs)%nat -> valid_index degs mi -> (nth k mi 0 + 1 <= nth k degs 0)%nat ->
     N (d1 (fun j => G (upd_list mi k j)) (nth k mi 0%nat)) <= nth k Ds 0) ->
  N (vsub (G idx) (G idx')) <= weighted_sum degs Ds.
Proof using HN M.
  induction degs as [|p degs IH]; intros idx idx' Ds G HV HV' HDs H0 HD.
  - inversion HV; inversion HV'; subst. cbn. destruct Ds; rewrite N_sub_0 by auto; lra.
  - inversion HV as [|? i ? l Hi Hl E1 E2]; subst. inversion HV' as [|? i' ? l' Hi' Hl' E1 E2]; subst.
    destruct Ds as [|D Ds]; [discriminate|]. inversion H0; subst. cbn [weighted_sum].
    rewrite (sub_sub_add _ (G (i' :: l))). eapply Rle_trans; [apply (proj1 HN)|]. apply Rplus_le_compat.
    + apply (line_spread2 (fun j => G (j :: l))); auto. intros j Hj. apply (HD 0%nat (j :: l)); [cbn; lia|constructor; [lia|auto]|cbn; lia].
    + apply (IH l l' Ds (fun mi => G (i' :: mi))); auto. intros k mi Hk Hmi Hc. apply (HD (S k) (i' :: mi)); auto; [cbn; lia|constructor; auto].
Qed.
Lemma mbez_near degs : forall ts (G : list nat -> V) c B, length ts = length degs -> Forall (fun t => 0 <= t <= 1) ts ->
  (forall mi, valid_index degs mi -> N (vsub (G mi) c) <= B) -> N (vsub (mbez degs ts G) c) <= B.
Proof using HN M.
  induction degs as [|p degs IH]; intros ts G c B HL HT H; [destruct ts; [|discriminate]; apply H; constructor|].
  destruct ts as [|t ts]; [discriminate|]. inversion HT as [|? ? Ht HT']; subst. cbn [mbez].
  assert (E : c = vsum (S p) (fun j => vscale (bernstein p j t) c)).
  { rewrite vsum_scale_l. rewrite bernstein_sum, vm_1. reflexivity. }
  rewrite E at 1. rewrite <- vsum_sub. rewrite (vsum_ext _ _ (fun j => vscale (bernstein p j t) (vsub (mbez degs ts (fun mi => G (j :: mi))) c))).
  2:{ intros j _. symmetry. rewrite !vm_sub, vm_dr, vscale_opp. reflexivity. }
  eapply Rle_trans; [apply (N_sum N (seminorm_sublinear N HN) _ _ _ (fun _ => B))|].
  - intros j Hj. split; [apply bernstein_nonneg'; auto|]. apply IH; auto. intros mi Hmi. apply H. constructor; [lia|auto].
  - rewrite (ssum_ext _ _ (fun j => smul B (bernstein p j t))) by (intros; cbn; lra). rewrite ssum_scale, bern_sum. cbn. lra.
Qed.
End Distance.
