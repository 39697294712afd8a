(** The distance of the control points from the spline. *)
From Coq Require Import Arith Lia List ZArith Bool Ring Field Reals Lra Psatz.
From Verif Require Import Prelude Scalar Spec SpecSpline Sums Coord ModelBasis ModelSpline ProofIndex ProofBasis ProofEval
  ProofElevate ProofDerivSpline ProofCasteljau ProofRaw ProofRoundOps ProofRoundEval SpecNet ProofNet.
Import ListNotations.
Local Open Scope nat_scope.

Section Lines.
Context {T V : Type} {o : SOps T} {ov : VOps T V} {F : SField T} {M : VMod T V}.
Add Field Tfield2 : (@sf_th T o F).
Add Ring Ering2 : (@ext_ring T V o ov F M).
Ltac vring := to_ext; ring.
(** Deviation of [f j] from the line through [f i] with slope [m]; [c j] is [j - i]. *)
Lemma dev_sum n (w c : nat -> T) (f : nat -> V) (a m : V) : ssum n w = s1 -> ssum n (fun j => smul (w j) (c j)) = s0 ->
  vsub (vsum n (fun j => vscale (w j) (f j))) a = vsum n (fun j => vscale (w j) (vsub (vsub (f j) a) (vscale (c j) m))).
Proof.
  intros H1 H2. transitivity (vsub (vsub (vsum n (fun j => vscale (w j) (f j))) (vscale (ssum n w) a)) (vscale (ssum n (fun j => smul (w j) (c j))) m)).
  { rewrite H1, H2. vring. }
  rewrite <- !vsum_scale_l, <- !vsum_sub. apply vsum_ext. intros j _. vring.
Qed.
Lemma dev_up (f0 f1 f2 a m : V) (c : T) :
  vsub (vsub (vsub (vsub f2 a) (vscale (sadd (sadd c s1) s1) m)) (vsub (vsub f1 a) (vscale (sadd c s1) m)))
       (vsub (vsub (vsub f1 a) (vscale (sadd c s1) m)) (vsub (vsub f0 a) (vscale c m))) = vsub (vsub f2 f1) (vsub f1 f0).
Proof. vring. Qed.
Lemma dev_down (f0 f1 f2 a m : V) (c : T) :
  vsub (vsub (vsub (vsub f2 a) (vscale (ssub (ssub c s1) s1) m)) (vsub (vsub f1 a) (vscale (ssub c s1) m)))
       (vsub (vsub (vsub f1 a) (vscale (ssub c s1) m)) (vsub (vsub f0 a) (vscale c m))) = vsub (vsub f0 f1) (vsub f1 f2).
Proof. vring. Qed.
Lemma vsub_swap (a b : V) : vsub a b = vscale (sopp s1) (vsub b a).
Proof. vring. Qed.
Lemma sub_sub_add (a b c : V) : vsub a c = vadd (vsub a b) (vsub b c).
Proof. vring. Qed.
Lemma second (a b c : V) (h : T) : sadd h h = s1 -> vsub (vsub c b) (vscale s1 (vscale h (vsub c a))) = vscale h (vsub (vsub c b) (vsub b a)).
Proof.
  intros Hh. replace (vsub (vsub c b) (vscale s1 (vscale h (vsub c a)))) with (vsub (vscale (sadd h h) (vsub c b)) (vscale h (vsub c a))) by (rewrite Hh; vring). vring.
Qed.
Lemma second' (a b c : V) (h : T) : sadd h h = s1 -> vsub (vsub a b) (vscale (sopp s1) (vscale h (vsub c a))) = vscale h (vsub (vsub c b) (vsub b a)).
Proof.
  intros Hh. replace (vsub (vsub a b) (vscale (sopp s1) (vscale h (vsub c a)))) with (vadd (vscale (sadd h h) (vsub a b)) (vscale h (vsub c a))) by (rewrite Hh; vring). vring.
Qed.
End Lines.

Local Open Scope R_scope.
Section Distance.
Context {V : Type} {ov : VOps R V} {M : VMod R V}.
Context (N : V -> R) (HN : seminorm N).

(** A sequence with small second differences, zero at 0 and half as large at 1, grows quadratically. *)
Lemma grow (g : nat -> V) D n : N (g 0%nat) <= 0 -> N (g 1%nat) <= D / 2 ->
  (forall m, (m + 2 <= n)%nat -> N (vsub (vsub (g (m + 2)%nat) (g (m + 1)%nat)) (vsub (g (m + 1)%nat) (g m))) <= D) ->
  forall m, (m <= n)%nat -> N (g m) <= INR m * INR m / 2 * D /\ ((m + 1 <= n)%nat -> N (vsub (g (m + 1)%nat) (g m)) <= (INR m + 1 / 2) * D).
Proof.
  intros H0 H1 H2. induction m as [|m IH]; intros Hm.
  - split; [simpl; lra|]. intros _. change (0 + 1)%nat with 1%nat. rewrite vm_sub, vopp_scale.
    eapply Rle_trans; [apply (proj1 HN)|]. rewrite (proj2 HN). cbn [sopp s1 SOps_R]. change R1 with 1.
    rewrite Rabs_Ropp, Rabs_R1. simpl. lra.
  - destruct (IH ltac:(lia)) as (A & B). specialize (B ltac:(lia)). rewrite S_INR. split.
    + assert (E : g (S m) = vadd (vsub (g (m + 1)%nat) (g m)) (g m)).
      { rewrite vm_sub, <- vm_assoc, (vm_comm (vopp _)), vm_opp, vm_comm, vm_0. f_equal. lia. }
      rewrite E. eapply Rle_trans; [apply (proj1 HN)|]. nra.
    + intros Hm'. replace (S m + 1)%nat with (m + 2)%nat by lia. replace (S m) with (m + 1)%nat by lia.
      assert (E : vsub (g (m + 2)%nat) (g (m + 1)%nat) = vadd (vsub (vsub (g (m + 2)%nat) (g (m + 1)%nat)) (vsub (g (m + 1)%nat) (g m))) (vsub (g (m + 1)%nat) (g m))).
      { set (u := vsub (g (m + 2)%nat) (g (m + 1)%nat)). set (v := vsub (g (m + 1)%nat) (g m)). rewrite vm_sub, <- vm_assoc, (vm_comm (vopp _)), vm_opp, vm_comm, vm_0. reflexivity. }
      rewrite E. eapply Rle_trans; [apply (proj1 HN)|]. specialize (H2 m ltac:(lia)). lra.
Qed.
Lemma N_swap a b : N (vsub a b) = N (vsub b a).
Proof. rewrite (vsub_swap a b), (proj2 HN). cbn [sopp s1 SOps_R]. change R1 with 1. rewrite Rabs_Ropp, Rabs_R1. lra. Qed.
Lemma N_sub_0 a : N (vsub a a) = 0.
Proof. rewrite vm_sub, vm_opp. apply N_0. apply seminorm_sublinear. auto. Qed.
Lemma node_ends p i t : (0 < p)%nat -> INR p * t = INR i -> (i = 0%nat -> t = 0) /\ (i = p -> t = 1).
Proof.
  intros Hp Ht. assert (HP : 0 < INR p) by (apply lt_0_INR; lia). split; intros ->.
  - simpl in Ht. apply Rmult_integral in Ht. lra.
  - apply (Rmult_eq_reg_l (INR p)); lra.
Qed.
Lemma line_distance p i t (f : nat -> V) D : (i <= p)%nat -> 0 <= t <= 1 -> INR p * t = INR i ->
  (forall j, (j + 2 <= p)%nat -> N (d2 f j) <= D) ->
  N (vsub (vsum (S p) (fun j => vscale (bernstein p j t) (f j))) (f i)) <= INR i * INR (p - i) / (2 * INR p) * D.
Proof.
  intros Hi Ht He HD. destruct (Nat.eq_dec p 0) as [->|Hp].
  { assert (i = 0%nat) as -> by lia. cbn [vsum]. rewrite bernstein_0_0, vm_1, vm_0, N_sub_0. simpl. lra. }
  destruct (node_ends p i t ltac:(lia) He) as (E0 & E1).
  destruct (Nat.eq_dec i 0) as [I0|I0].
  { rewrite (E0 I0), I0. rewrite (vsum_single _ 0); [|lia|intros j Hj Hne; change 0 with (s0 (SOps := SOps_R)); rewrite bernstein_at_0, (proj2 (Nat.eqb_neq _ _)) by auto; apply vscale_0_l].
    change 0 with (s0 (SOps := SOps_R)) at 1. rewrite bernstein_at_0. cbn [Nat.eqb]. rewrite vm_1, N_sub_0. simpl. lra. }
  destruct (Nat.eq_dec i p) as [I1|I1].
  { rewrite (E1 I1), I1. rewrite (vsum_single _ p); [|lia|intros j Hj Hne; change 1 with (s1 (SOps := SOps_R)); rewrite bernstein_at_1, (proj2 (Nat.eqb_neq _ _)) by (auto; lia); apply vscale_0_l].
    change 1 with (s1 (SOps := SOps_R)) at 1. rewrite bernstein_at_1, Nat.eqb_refl, vm_1, N_sub_0 by lia. rewrite Nat.sub_diag. simpl. lra. }
  set (m := vscale (1 / 2) (vsub (f (i + 1)%nat) (f (i - 1)%nat))). set (c := fun j => INR j - INR i).
  set (g := fun j => vsub (vsub (f j) (f i)) (vscale (c j) m)).
  assert (S1 : ssum (S p) (fun j => bernstein p j t) = 1) by apply bern_sum.
  assert (Sj : ssum (S p) (fun j => bernstein p j t * INR j) = INR i) by (rewrite bern_moment1; exact He).
  assert (Sjj : ssum (S p) (fun j => bernstein p j t * (INR j * INR j)) = INR i * (1 - t) + INR i * INR i) by (rewrite bern_moment2, He; reflexivity).
  assert (Sc : ssum (S p) (fun j => bernstein p j t * c j) = 0).
  { rewrite (ssum_ext _ _ (fun j => sadd (bernstein p j t * INR j) (smul (- INR i) (bernstein p j t)))) by (intros; unfold c; cbn; lra).
    rewrite ssum_add, ssum_scale. cbn [sadd smul SOps_R]. rewrite Sj, S1. lra. }
  rewrite (dev_sum (S p) (fun j => bernstein p j t) c f (f i) m).
  2:{ rewrite S1. reflexivity. } 2:{ cbn [smul s0 SOps_R]. rewrite Sc. reflexivity. }
  fold g. eapply Rle_trans; [apply (N_sum N (seminorm_sublinear N HN) _ _ _ (fun j => c j * c j / 2 * D))|].
  - intros j Hj. split; [apply bernstein_nonneg'; auto|].
    assert (HH : sadd (1 / 2) (1 / 2) = s1 :> R) by (cbn; change R1 with 1; lra).
    destruct (le_lt_dec i j) as [L|L].
    + assert (G : forall n, (n <= p - i)%nat -> N (g (i + n)%nat) <= INR n * INR n / 2 * D).
      { intros n Hn. refine (proj1 (grow (fun n => g (i + n)%nat) D (p - i) _ _ _ n Hn)).
        - rewrite Nat.add_0_r. unfold g, c. rewrite Rminus_diag_eq by reflexivity. change 0 with (s0 (SOps := SOps_R)) at 1. rewrite vscale_0_l, !vm_sub, vm_opp, vm_0, vopp_scale, vscale_0_r, N_0 by (apply seminorm_sublinear; auto). lra.
        - unfold g, c, m. rewrite plus_INR. simpl (INR 1). replace (INR i + 1 - INR i) with 1 by lra.
          rewrite (second (f (i - 1)%nat) (f i) (f (i + 1)%nat) (1 / 2) HH), (proj2 HN).
          rewrite Rabs_pos_eq by lra. specialize (HD (i - 1)%nat ltac:(lia)). unfold d2 in HD. replace (i - 1 + 2)%nat with (i + 1)%nat in HD by lia. replace (i - 1 + 1)%nat with i in HD by lia. lra.
        - intros k Hk. unfold g. replace (c (i + (k + 2))%nat) with (c (i + k)%nat + 1 + 1) by (unfold c; rewrite !plus_INR; simpl; lra).
          replace (c (i + (k + 1))%nat) with (c (i + k)%nat + 1) by (unfold c; rewrite !plus_INR; simpl; lra).
          eapply Rle_trans; [right; apply f_equal; exact (dev_up (f (i + k)%nat) (f (i + (k + 1))%nat) (f (i + (k + 2))%nat) (f i) m (c (i + k)%nat))|]. rewrite !Nat.add_assoc. apply HD. lia. }
      specialize (G (j - i)%nat ltac:(lia)). replace (i + (j - i))%nat with j in G by lia. rewrite minus_INR in G by lia. exact G.
    + assert (G : forall n, (n <= i)%nat -> N (g (i - n)%nat) <= INR n * INR n / 2 * D).
      { intros n Hn. refine (proj1 (grow (fun n => g (i - n)%nat) D i _ _ _ n Hn)).
        - rewrite Nat.sub_0_r. unfold g, c. rewrite Rminus_diag_eq by reflexivity. change 0 with (s0 (SOps := SOps_R)) at 1. rewrite vscale_0_l, !vm_sub, vm_opp, vm_0, vopp_scale, vscale_0_r, N_0 by (apply seminorm_sublinear; auto). lra.
        - unfold g, c, m. rewrite minus_INR by lia. simpl (INR 1). replace (INR i - 1 - INR i) with (- (1)) by lra.
          rewrite (second' (f (i - 1)%nat) (f i) (f (i + 1)%nat) (1 / 2) HH), (proj2 HN).
          rewrite Rabs_pos_eq by lra. specialize (HD (i - 1)%nat ltac:(lia)). unfold d2 in HD. replace (i - 1 + 2)%nat with (i + 1)%nat in HD by lia. replace (i - 1 + 1)%nat with i in HD by lia. lra.
        - intros k Hk. unfold g. replace (c (i - (k + 2))%nat) with (c (i - k)%nat - 1 - 1) by (unfold c; rewrite !minus_INR, plus_INR by lia; simpl; lra).
          replace (c (i - (k + 1))%nat) with (c (i - k)%nat - 1) by (unfold c; rewrite !minus_INR, plus_INR by lia; simpl; lra).
          eapply Rle_trans; [right; apply f_equal; exact (dev_down (f (i - k)%nat) (f (i - (k + 1))%nat) (f (i - (k + 2))%nat) (f i) m (c (i - k)%nat))|].
          specialize (HD (i - (k + 2))%nat ltac:(lia)). unfold d2 in HD. replace (i - (k + 2) + 2)%nat with (i - k)%nat in HD by lia. replace (i - (k + 2) + 1)%nat with (i - (k + 1))%nat in HD by lia. exact HD. }
      specialize (G (i - j)%nat ltac:(lia)). replace (i - (i - j))%nat with j in G by lia. rewrite minus_INR in G by lia.
      replace (c j * c j) with ((INR i - INR j) * (INR i - INR j)) by (unfold c; ring). exact G.
  - rewrite (ssum_ext _ _ (fun j => smul (D / 2) (sadd (sadd (bernstein p j t * (INR j * INR j)) (smul (-2 * INR i) (bernstein p j t * INR j))) (smul (INR i * INR i) (bernstein p j t))))).
    2:{ intros j _. unfold c. cbn. field. }
    rewrite ssum_scale, !ssum_add, !ssum_scale. cbn [sadd smul SOps_R]. rewrite Sjj, Sj, S1. rewrite minus_INR by lia.
    assert (HP : 0 < INR p) by (apply lt_0_INR; lia). right. replace t with (INR i / INR p) by (rewrite <- He; field; lra). field. lra.
Qed.
End Distance.
