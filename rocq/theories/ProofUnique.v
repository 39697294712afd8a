(** Control points are determined by the values of a spline. *)
From Coq Require Import Arith Lia List ZArith NArith Bool Ring Field.
From Verif Require Import Prelude Scalar Spec SpecSpline Sums ModelBasis ModelSpline ProofIndex ProofEval.
Import ListNotations.

Section Uniq.
Context {T V : Type} {o : SOps T} {ov : VOps T V} {F : SField T} {M : VMod T V}.
Add Field Tfield : (@sf_th T o F).
Add Ring Ering : (@ext_ring T V o ov F M).
Ltac vring := to_ext; ring.

Fixpoint peval (l : list V) (x : T) : V :=
  match l with [] => v0 | a :: t => vadd a (vscale x (peval t x)) end.
Fixpoint pquot (c : T) (l : list V) : list V :=
  match l with [] => [] | a :: t => peval (a :: t) c :: pquot c t end.

Lemma pquot_spec c a l x :
  peval (a :: l) x = vadd (peval (a :: l) c) (vscale (ssub x c) (peval (pquot c l) x)).
Proof.
  revert a; induction l as [|b t IH]; intros a.
  - simpl. vring.
  - change (peval (a :: b :: t) x) with (vadd a (vscale x (peval (b :: t) x))).
    change (peval (a :: b :: t) c) with (vadd a (vscale c (peval (b :: t) c))).
    change (peval (pquot c (b :: t)) x) with
      (vadd (peval (b :: t) c) (vscale x (peval (pquot c t) x))).
    rewrite IH. vring.
Qed.

Lemma pquot_zero c l : Forall (fun v => v = v0) (pquot c l) -> Forall (fun v => v = v0) l.
Proof.
  induction l; intros H; constructor.
  - inversion H as [|? ? Ha Hl]; subst. destruct l.
    + simpl in Ha. rewrite <- Ha. vring.
    + assert (Hb : peval (v :: l) c = v0) by (inversion Hl; auto).
      change (peval (a :: v :: l) c) with (vadd a (vscale c (peval (v :: l) c))) in Ha.
      rewrite Hb in Ha. rewrite <- Ha. vring.
  - apply IHl. now inversion H.
Qed.

Lemma vscale_cancel (x : T) (a : V) : x <> s0 -> vscale x a = v0 -> a = v0.
Proof.
  intros Hx H. assert (E : a = vscale (sdiv s1 x) (vscale x a)).
  { rewrite <- vm_mul. replace (smul (sdiv s1 x) x) with (s1 : T) by (field; auto). now rewrite vm_1. }
  rewrite E, H. apply vscale_0_r.
Qed.

Lemma sofnat_inj a b : sofnat a = (sofnat b : T) -> a = b.
Proof.
  intros H. destruct (Nat.lt_total a b) as [L|[L|L]]; auto; exfalso.
  - apply (sofnat_neq0 (S:=T) (b - a)); [lia|]. rewrite sofnat_sub by lia. rewrite H. ring.
  - apply (sofnat_neq0 (S:=T) (a - b)); [lia|]. rewrite sofnat_sub by lia. rewrite H. ring.
Qed.

Lemma peval_zero n : forall l N, length l <= n ->
  (forall m, N <= m -> peval l (sofnat m) = v0) -> Forall (fun v => v = v0) l.
Proof.
  induction n; intros l N HL H.
  - destruct l; simpl in HL; [constructor|lia].
  - destruct l as [|a l]; [constructor|]. simpl in HL.
    assert (Hq : Forall (fun v => v = v0) (pquot (sofnat N) l)).
    { apply (IHn _ (S N)).
      - assert (E : length (pquot (sofnat N) l) = length l) by (clear; induction l; simpl; auto). lia.
      - intros m Hm. pose proof (H m ltac:(lia)) as Hx. rewrite (pquot_spec (sofnat N)) in Hx.
        rewrite (H N) in Hx by lia. rewrite vm_0 in Hx.
        apply vscale_cancel in Hx; auto. intros E.
        assert (sofnat m = (sofnat N : T)).
        { replace (sofnat m : T) with (sadd (ssub (sofnat m) (sofnat N)) (sofnat N)) by ring. rewrite E. ring. }
        apply sofnat_inj in H0. lia. }
    pose proof (pquot_zero _ _ Hq) as Hl. constructor; auto.
    pose proof (H N ltac:(lia)) as Ha. simpl in Ha.
    assert (E : peval l (sofnat N) = v0).
    { clear - Hl F M. induction Hl; simpl; auto. rewrite IHHl. subst. vring. }
    rewrite E in Ha. rewrite <- Ha. vring.
Qed.

Lemma peval_map_seq n k (f : nat -> V) x :
  peval (map f (seq k n)) x = vsum n (fun j => vscale (spow x j) (f (k + j))).
Proof.
  revert k; induction n; intros k; [reflexivity|].
  rewrite vsum_first. cbn [seq map peval]. rewrite IHn, Nat.add_0_r, <- vsum_scale.
  rewrite spow_0, vm_1. f_equal. apply vsum_ext. intros j Hj.
  rewrite spow_S, vm_mul. do 3 f_equal. lia.
Qed.

Lemma bernstein_unique p (c : nat -> V) :
  (forall x : T, vsum (S p) (fun j => vscale (bernstein p j x) (c j)) = v0) ->
  forall j, j <= p -> c j = v0.
Proof.
  intros H j Hj.
  assert (Hz : Forall (fun v => v = v0) (map (fun j => vscale (sofN (binom p j) : T) (c j)) (seq 0 (S p)))).
  { apply (peval_zero (S p) _ 0); [rewrite map_length, seq_length; lia|].
    intros m _. rewrite peval_map_seq.
    set (q := sofnat (S m) : T). assert (Hq : q <> s0) by (apply sofnat_neq0; lia).
    apply (vscale_cancel (spow (sdiv s1 q) p)); [apply spow_neq0|].
    - intros E. apply (s1_neq0 (S:=T)). replace (s1 : T) with (smul (sdiv s1 q) q) by (field; auto). rewrite E. ring.
    - rewrite <- vsum_scale, <- (H (smul (sofnat m) (sdiv s1 q))).
      apply vsum_ext. intros i Hi. rewrite Nat.add_0_l, <- !vm_mul. f_equal.
      unfold bernstein.
      replace (ssub s1 (smul (sofnat m) (sdiv s1 q))) with (sdiv s1 q).
      2:{ unfold q. rewrite sofnat_S. field. intros E. apply Hq. unfold q. rewrite sofnat_S. exact E. }
      rewrite spow_mul_base. replace p with (i + (p - i)) at 1 by lia. rewrite spow_add. ring. }
  rewrite Forall_forall in Hz. apply (vscale_cancel (sofN (binom p j))).
  - apply sbinom_neq0. auto.
  - apply Hz. apply in_map_iff. exists j. split; auto. apply in_seq. lia.
Qed.

Lemma bezier_zero degs (f : nat -> V) :
  (forall xs : list T, length xs = length degs -> bezier degs xs f = v0) ->
  forall i, i < n_coeffs degs -> f i = v0.
Proof.
  revert f; induction degs as [|p degs IH]; intros f H i Hi.
  - unfold n_coeffs, prod in Hi. simpl in Hi. replace i with 0 by lia. apply (H []). reflexivity.
  - rewrite n_coeffs_cons in Hi.
    pose proof (Nat.div_mod i (S p) ltac:(lia)) as E.
    pose proof (Nat.mod_upper_bound i (S p) ltac:(lia)) as Hm.
    assert (Hg : i / S p < n_coeffs degs) by (apply Nat.div_lt_upper_bound; lia).
    rewrite E. rewrite Nat.add_comm.
    apply (IH (fun g => f (i mod S p + S p * g))); auto.
    intros xs HX.
    apply (bernstein_unique p (fun j => bezier degs xs (fun g => f (j + S p * g)))); [|lia].
    intros x. apply (H (x :: xs)). simpl. lia.
Qed.

Theorem spline_unique (s s' : spline V) :
  wf s -> wf s' -> degrees s = degrees s' ->
  (forall xs : list T, length xs = length (degrees s) -> value_at s xs = value_at s' xs) -> s = s'.
Proof.
  intros Hw Hw' Hd H. rewrite (wf_eq_mk s Hw), (wf_eq_mk s' Hw'). rewrite Hd. f_equal.
  destruct Hw as (_ & _ & _ & HL). destruct Hw' as (_ & _ & _ & HL').
  apply (list_ext v0); [congruence|]. intros i Hi.
  apply (vadd_cancel (vopp (nth i (control_points s') v0))).
  replace (vadd (vopp (nth i (control_points s') v0)) (nth i (control_points s') v0)) with (v0 : V) by vring.
  replace (vadd (vopp (nth i (control_points s') v0)) (nth i (control_points s) v0)) with
    (vsub (nth i (control_points s) v0) (nth i (control_points s') v0)) by vring.
  apply (bezier_zero (degrees s) (fun i => vsub (nth i (control_points s) v0) (nth i (control_points s') v0))); [|lia].
  intros xs HX. rewrite bezier_sub. pose proof (H xs HX) as E. unfold value_at in E. rewrite <- Hd in E. rewrite E. vring.
Qed.

End Uniq.
