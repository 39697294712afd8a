(** Shape of splines: from curves of numbers to splines. *)
From Coq Require Import Arith Lia List ZArith Bool Reals Lra.
From Verif Require Import Prelude Scalar Spec SpecSpline Sums ModelBasis ModelSpline ProofIndex ProofEval ProofCasteljau SpecNet ProofNet ProofNet3 ProofNet4 SpecShape ProofShape.
Import ListNotations.
Local Open Scope R_scope.

(** Increasing parameters, by reflection. *)
Lemma dcR_mirror x f p r : forall j, (j + r <= p)%nat -> dcR (1 - x) (fun i => f (p - i)%nat) r j = dcR x f r (p - j - r)%nat.
Proof.
  induction r; intros j H; [rewrite !dcR_0; f_equal; lia|]. rewrite !dcR_S. rewrite !IHr by lia.
  replace (p - S j - r)%nat with (p - j - S r)%nat by lia. replace (p - j - r)%nat with (S (p - j - S r)) by lia. ring.
Qed.
Lemma increasing_impl {A} (P Q : A -> A -> Prop) (R : A -> Prop) l : (forall a b, R a -> R b -> P a b -> Q a b) -> Forall R l -> increasing P l -> increasing Q l.
Proof.
  intros H. induction l as [|a l IH]; [auto|]. destruct l as [|b l]; [auto|]. intros HF (H1 & H2). inversion HF as [|? ? Ha HF']; subst. split; [|apply IH; auto].
  inversion HF'; subst. auto.
Qed.
Lemma variation p (xs vs : list R) (f : nat -> R) : increasing Rlt xs -> Forall (fun x => 0 <= x <= 1) xs -> alternating vs ->
  Forall2 (fun x v => same_sign (dcR x f p 0) v) xs vs ->
  exists is, Forall (fun i => (i <= p)%nat) is /\ increasing lt is /\ Forall2 (fun i v => same_sign (f i) v) is vs.
Proof.
  intros HI HF HA HS. destruct (variation_desc p _ (map (fun x => 1 - x) xs) vs (fun i => f (p - i)%nat) eq_refl) as (is & I1 & I2 & I3).
  - eapply increasing_map; [|exact HI]. intros a b Hab. lra.
  - apply Forall_map. eapply Forall_impl; [|exact HF]. cbn beta. intros; lra.
  - exact HA.
  - apply F2_map_l. eapply F2_impl; [|exact HS]. cbn beta. intros a b. rewrite dcR_mirror by lia. replace (p - 0 - p)%nat with 0%nat by lia. auto.
  - exists (map (fun i => (p - i)%nat) is). split; [apply Forall_map; eapply Forall_impl; [|exact I1]; cbn beta; intros; lia|]. split.
    + eapply increasing_map; [|refine (increasing_impl gt (fun a b => (b < a <= p)%nat) _ is _ I1 I2)]; cbn beta; intros a b; lia.
    + apply F2_map_l. exact I3.
Qed.

(** ** Several parameters *)
Fixpoint md (degs : list nat) (xs : list R) (g : list nat -> R) : R :=
  match degs, xs with
  | p :: degs', x :: xs' => dcR x (fun j => md degs' xs' (fun idx => g (j :: idx))) p 0
  | _, _ => g []
  end.
Lemma md_mono degs : forall xs g h, length xs = length degs -> Forall (fun x => 0 <= x <= 1) xs ->
  (forall idx, valid_index degs idx -> g idx <= h idx) -> md degs xs g <= md degs xs h.
Proof.
  induction degs as [|p degs IH]; intros [|x xs] g h HL HF H; try discriminate; [apply H; constructor|]. cbn [md]. inversion HF; subst.
  apply dcR_mono; auto. intros i Hi. apply IH; auto. intros idx HV. apply H. constructor; auto. lia.
Qed.
Lemma md_ext degs : forall xs g h, (forall idx, g idx = h idx) -> md degs xs g = md degs xs h.
Proof.
  induction degs as [|p degs IH]; intros [|x xs] g h H; cbn [md]; auto. apply dcR_ext. intros i. apply IH. auto.
Qed.
Lemma md_lin degs a b : forall xs g h, md degs xs (fun i => a * g i + b * h i) = a * md degs xs g + b * md degs xs h.
Proof.
  induction degs as [|p degs IH]; intros [|x xs] g h; cbn [md]; auto. rewrite <- dcR_lin. apply dcR_ext. intros i. apply IH.
Qed.
Lemma md_rise degs : forall k xs y g, length xs = length degs -> Forall (fun x => 0 <= x <= 1) xs -> (k < length degs)%nat -> nth k xs 0 <= y <= 1 ->
  (forall idx, valid_index degs idx -> (nth k idx 0 + 1 <= nth k degs 0)%nat -> g idx <= g (upd_list idx k (nth k idx 0 + 1)%nat)) ->
  md degs xs g <= md degs (upd_list xs k y) g.
Proof.
  induction degs as [|p degs IH]; intros k [|x xs] y g HL HF Hk Hy H; try discriminate; [cbn in Hk; lia|]. inversion HF as [|? ? Bx HF']; subst.
  destruct k as [|k]; cbn [upd_list md nth] in *.
  - apply dcR_rise; try lra. intros i Hi. apply md_mono; auto. intros idx HV. replace (S i) with (i + 1)%nat by lia. apply (H (i :: idx)); [constructor; auto; lia|cbn; lia].
  - apply dcR_mono; auto. intros i Hi. apply IH; auto. { cbn in Hk; lia. }
    intros idx HV Hn. apply (H (i :: idx)); auto. constructor; auto. lia.
Qed.
Lemma md_convex degs : forall k xs y z t g, length xs = length degs -> Forall (fun x => 0 <= x <= 1) xs -> (k < length degs)%nat -> 0 <= y <= 1 -> 0 <= z <= 1 -> 0 <= t <= 1 ->
  (forall idx, valid_index degs idx -> (nth k idx 0 + 2 <= nth k degs 0)%nat -> 2 * g (upd_list idx k (nth k idx 0 + 1)%nat) <= g idx + g (upd_list idx k (nth k idx 0 + 2)%nat)) ->
  md degs (upd_list xs k ((1 - t) * y + t * z)) g <= (1 - t) * md degs (upd_list xs k y) g + t * md degs (upd_list xs k z) g.
Proof.
  induction degs as [|p degs IH]; intros k [|x xs] y z t g HL HF Hk Hy Hz Ht H; try discriminate; [cbn in Hk; lia|]. inversion HF as [|? ? Bx HF']; subst.
  destruct k as [|k]; cbn [upd_list md nth] in *.
  - apply dcR_convex; auto. intros i Hi.
    replace (md degs xs (fun idx => g (i :: idx)) + md degs xs (fun idx => g (S (S i) :: idx))) with (md degs xs (fun idx => 1 * g (i :: idx) + 1 * g (S (S i) :: idx))) by (rewrite md_lin; ring).
    replace (2 * md degs xs (fun idx => g (S i :: idx))) with (md degs xs (fun idx => 2 * g (S i :: idx) + 0 * g (S i :: idx))) by (rewrite md_lin; ring).
    apply md_mono; auto. intros idx HV. pose proof (H (i :: idx)) as Q. cbn [nth upd_list] in Q. replace (i + 1)%nat with (S i) in Q by lia. replace (i + 2)%nat with (S (S i)) in Q by lia.
    specialize (Q ltac:(constructor; auto; lia) ltac:(lia)). lra.
  - rewrite <- dcR_lin. apply dcR_mono; auto. intros i Hi. apply IH; auto. { cbn in Hk; lia. }
    intros idx HV Hn. apply (H (i :: idx)); auto. constructor; auto. lia.
Qed.

Section Forms.
Context {V : Type} {ov : VOps R V} {M : VMod R V} (phi : V -> R) (HP : affine_form phi).
Lemma phi_dc x f r : forall j, phi (dc x f r j) = dcR x (fun i => phi (f i)) r j.
Proof using HP. induction r; intros j; [reflexivity|]. cbn [dc]. rewrite <- !IHr. apply HP. Qed.
Lemma dc_dcas x (f : nat -> V) r : forall j, dcas x f r j = dc x f r j.
Proof using M. induction r; intros j; [apply dcas_0|]. rewrite dcas_S. cbn [dc]. rewrite !IHr. reflexivity. Qed.
Lemma phi_mbez degs : forall xs (G : list nat -> V), length xs = length degs -> phi (mbez degs xs G) = md degs xs (fun idx => phi (G idx)).
Proof using HP M.
  induction degs as [|p degs IH]; intros [|x xs] G HL; try discriminate; [reflexivity|]. cbn [mbez md].
  change (phi (dcas x (fun j => mbez degs xs (fun idx => G (j :: idx))) p 0) = dcR x (fun j => md degs xs (fun idx => phi (G (j :: idx)))) p 0).
  rewrite dc_dcas, phi_dc. apply dcR_ext. intros i. apply IH. cbn in HL. lia.
Qed.
(** The linear part, negated. *)
Definition negl (v : V) : R := phi v0 - phi v.
Lemma phi_scale c v : phi (vscale c v) = (1 - c) * phi v0 + c * phi v.
Proof using HP M. rewrite <- HP. rewrite vscale_0_r. rewrite vm_0. reflexivity. Qed.
Lemma phi_add a b : phi (vadd a b) = phi a + phi b - phi v0.
Proof using HP M.
  replace (vadd a b) with (vadd (vscale (1 - / 2) (vscale 2 a)) (vscale (/ 2) (vscale 2 b))).
  - rewrite HP, !phi_scale. field.
  - f_equal; rewrite <- vm_mul; cbn [smul SOps_R]; [replace ((1 - / 2) * 2) with 1 by field|replace (/ 2 * 2) with 1 by field]; exact (vm_1 (S := R) _).
Qed.
Lemma negl_sublinear : sublinear negl.
Proof using HP M. unfold negl. split; [intros a b; rewrite phi_add; lra|intros c a Hc; rewrite phi_scale; lra]. Qed.
Lemma negl_sub a b : negl (vsub a b) = phi b - phi a.
Proof using HP M.
  unfold negl. rewrite vm_sub, vopp_scale, phi_add. cbn [sopp s1 SOps_R]. change R1 with 1. rewrite phi_scale. lra.
Qed.
Lemma rising_steps (s : spline V) k : rising phi s k <-> steps_below negl s k 0.
Proof using HP M. unfold rising, steps_below. split; intros H idx HV Hn; specialize (H idx HV Hn); rewrite ?negl_sub in *; lra. Qed.
Lemma convex_bends (s : spline V) k : convex_net phi s k <-> bends_below negl s k 0.
Proof using HP M.
  assert (E : forall a b c, negl (vsub (vsub c b) (vsub b a)) = 2 * phi b - phi a - phi c).
  { intros a b c. rewrite negl_sub. pose proof (negl_sub b a) as P. pose proof (negl_sub c b) as Q. unfold negl in *. lra. }
  unfold convex_net, bends_below. split; intros H idx HV Hn; specialize (H idx HV Hn); rewrite ?E in *; lra.
Qed.
End Forms.
