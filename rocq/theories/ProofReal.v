(** The algebraic derivatives are the derivatives of real analysis. *)
From Coq Require Import Arith Lia List ZArith NArith Bool Ring Field Reals Lra.
From Verif Require Import Prelude Scalar Spec SpecSpline SpecReal Sums Coord ModelBasis ModelSpline
  ProofIndex ProofBasis ProofEval ProofElevate ProofArith ProofDeriv ProofDerivSpline.
Import ListNotations.
Local Open Scope R_scope.

Lemma dlim_ext (f g : R -> R) x l l' : (forall y, f y = g y) -> l = l' ->
  derivable_pt_lim f x l -> derivable_pt_lim g x l'.
Proof. intros H <- D eps He. destruct (D eps He) as (d & Hd). exists d. intros h. rewrite <- !H. apply Hd. Qed.

Lemma dlim_const c x : derivable_pt_lim (fun _ => c) x 0.
Proof. apply derivable_pt_lim_const. Qed.
Lemma dlim_plus f g x a b : derivable_pt_lim f x a -> derivable_pt_lim g x b ->
  derivable_pt_lim (fun y => f y + g y) x (a + b).
Proof. intros. apply (derivable_pt_lim_plus f g); auto. Qed.
Lemma dlim_minus f g x a b : derivable_pt_lim f x a -> derivable_pt_lim g x b ->
  derivable_pt_lim (fun y => f y - g y) x (a - b).
Proof. intros. apply (derivable_pt_lim_minus f g); auto. Qed.
Lemma dlim_mult f g x a b : derivable_pt_lim f x a -> derivable_pt_lim g x b ->
  derivable_pt_lim (fun y => f y * g y) x (a * g x + f x * b).
Proof. intros. apply (derivable_pt_lim_mult f g); auto. Qed.
Lemma dlim_scal c f x a : derivable_pt_lim f x a -> derivable_pt_lim (fun y => c * f y) x (c * a).
Proof. intros. apply (derivable_pt_lim_scal f c); auto. Qed.
Lemma dlim_scal_r c f x a : derivable_pt_lim f x a -> derivable_pt_lim (fun y => f y * c) x (a * c).
Proof.
  intros H. apply (dlim_ext (fun y => c * f y) _ x (c * a)); [intros; ring|ring|]. apply dlim_scal; auto.
Qed.
Lemma dlim_id x : derivable_pt_lim (fun y => y) x 1.
Proof. apply derivable_pt_lim_id. Qed.
Lemma dlim_one_minus x : derivable_pt_lim (fun y => 1 - y) x (-1).
Proof. eapply dlim_ext; [| |apply dlim_minus; [apply (dlim_const 1)|apply dlim_id]]; intros; simpl; ring. Qed.

Lemma dlim_vsum n (f : nat -> R -> R) x (l : nat -> R) :
  (forall i, (i < n)%nat -> derivable_pt_lim (f i) x (l i)) ->
  derivable_pt_lim (fun y => vsum n (fun i => f i y)) x (vsum n l).
Proof.
  induction n; intros H; cbn [vsum].
  - apply dlim_const.
  - apply (dlim_plus (fun y => vsum n (fun i => f i y)) (f n)); auto.
Qed.
Lemma dlim_ssum n (f : nat -> R -> R) x (l : nat -> R) :
  (forall i, (i < n)%nat -> derivable_pt_lim (f i) x (l i)) ->
  derivable_pt_lim (fun y => ssum n (fun i => f i y)) x (ssum n l).
Proof.
  induction n; intros H; cbn [ssum].
  - apply dlim_const.
  - apply (dlim_plus (fun y => ssum n (fun i => f i y)) (f n)); auto.
Qed.

Ltac rsimpl := cbn [s0 s1 sadd ssub smul sopp SOps_R v0 vadd vsub vscale vopp VOps_scalar] in *; change R1 with 1 in *; change R0 with 0 in *.

(** The Bernstein polynomial [j - 1]. *)
Definition bpred (p j : nat) (x : R) : R := match j with O => 0 | S j' => bernstein p j' x end.

Lemma sofnat_S_R n : (sofnat (S n) : R) = sofnat n + 1.
Proof. unfold sofnat. rewrite Nat2N.inj_succ. exact (sf_ofNS (S := R) (N.of_nat n)). Qed.

Lemma dlim_bernstein p : forall j x,
  derivable_pt_lim (bernstein p j) x (sofnat p * (bpred (p - 1) j x - bernstein (p - 1) j x)).
Proof.
  induction p as [|p IH]; intros j x.
  - apply (dlim_ext (fun _ => bernstein 0 j 0) _ x 0).
    + intros y. unfold bernstein. destruct j; simpl; ring.
    + unfold sofnat. simpl. ring.
    + apply dlim_const.
  - replace (S p - 1)%nat with p by lia. destruct j as [|j].
    + apply (dlim_ext (fun y => (1 - y) * bernstein p 0 y) _ x
        ((-1) * bernstein p 0 x + (1 - x) * (sofnat p * (bpred (p - 1) 0 x - bernstein (p - 1) 0 x)))).
      * intros y. symmetry. exact (bernstein_rec_0 (T := R) p y).
      * rewrite sofnat_S_R. cbn [bpred]. destruct p as [|p]; [unfold sofnat; simpl; ring|].
        replace (S p - 1)%nat with p by lia. rewrite (bernstein_rec_0 (T := R)). rsimpl. ring.
      * apply (dlim_mult (fun y => 1 - y) (bernstein p 0)); [apply dlim_one_minus|apply IH].
    + apply (dlim_ext (fun y => (1 - y) * bernstein p (S j) y + y * bernstein p j y) _ x
        (((-1) * bernstein p (S j) x + (1 - x) * (sofnat p * (bpred (p - 1) (S j) x - bernstein (p - 1) (S j) x))) +
         (1 * bernstein p j x + x * (sofnat p * (bpred (p - 1) j x - bernstein (p - 1) j x))))).
      * intros y. symmetry. exact (bernstein_rec_S (T := R) p j y).
      * rewrite sofnat_S_R. cbn [bpred]. destruct p as [|p]; [unfold sofnat; simpl; ring|].
        replace (S p - 1)%nat with p by lia. rewrite (bernstein_rec_S (T := R) p j). destruct j as [|j]; cbn [bpred].
        -- rewrite (bernstein_rec_0 (T := R)). rsimpl. ring.
        -- rewrite (bernstein_rec_S (T := R) p j). rsimpl. ring.
      * apply dlim_plus.
        -- apply (dlim_mult (fun y => 1 - y) (bernstein p (S j))); [apply dlim_one_minus|apply IH].
        -- apply (dlim_mult (fun y => y) (bernstein p j)); [apply dlim_id|apply IH].
Qed.

Lemma dlim_bshift q i j x :
  derivable_pt_lim (bshift q i j) x (sofnat q * (bshift (q - 1) i (S j) x - bshift (q - 1) i j x)).
Proof.
  unfold bshift. destruct (Nat.leb_spec j i) as [H|H].
  - eapply dlim_ext; [intros y; reflexivity| |apply dlim_bernstein].
    destruct (Nat.leb_spec (S j) i) as [H'|H'].
    + replace (i - j)%nat with (S (i - S j)) by lia. reflexivity.
    + replace (i - j)%nat with 0%nat by lia. reflexivity.
  - rewrite (proj2 (Nat.leb_gt (S j) i)) by lia. eapply dlim_ext; [reflexivity| |apply (dlim_const 0)]. rsimpl. ring.
Qed.

Lemma dlim_dbern k p i x : derivable_pt_lim (dbern k p i) x (dbern (S k) p i x).
Proof.
  rewrite dbern_S. unfold dbern.
  apply (dlim_scal (ffall p k) (fun y => ssum (S k) (fun j => smul (smul (sgn (k + j)) (sofN (binom k j))) (bshift (p - k) i j y)))).
  apply dlim_ssum. intros j Hj. apply (dlim_scal (sgn (k + j) * sofN (binom k j)) (bshift (p - k) i j)).
  apply dlim_bshift.
Qed.

Lemma nth_derivative_dbern n : forall k p i, nth_derivative n (dbern k p i) (dbern (n + k) p i).
Proof.
  induction n; intros k p i; [intros x; reflexivity|]. exists (dbern (S k) p i). split; [apply dlim_dbern|].
  replace (S n + k)%nat with (n + S k)%nat by lia. apply IHn.
Qed.

(** One partial derivative of the tensor-product sum. *)
Lemma dlim_dmbez : forall degs ks xs (G : list nat -> R) k,
  length ks = length degs -> length xs = length degs -> (k < length degs)%nat ->
  derivable_pt_lim (fun y => dmbez ks degs (upd_list xs k y) G) (nth k xs 0)
    (dmbez (upd_list ks k (S (nth k ks 0%nat))) degs xs G).
Proof.
  induction degs as [|p degs IH]; intros [|a ks] [|x xs] G k H1 H2 Hk; try discriminate; [simpl in Hk; lia|].
  destruct k as [|k].
  - cbn [upd_list nth dmbez]. apply dlim_vsum. intros i Hi.
    apply (dlim_scal_r _ (dbern a p i)). apply dlim_dbern.
  - cbn [upd_list nth dmbez]. apply dlim_vsum. intros i Hi.
    apply (dlim_scal (dbern a p i x) (fun y => dmbez ks degs (upd_list xs k y) (fun r => G (i :: r)))).
    apply IH; simpl in *; lia.
Qed.

Lemma mixed_dmbez degs (G : list nat -> R) : forall dirs ks ks',
  length ks = length degs -> length ks' = length degs -> Forall (fun k => (k < length degs)%nat) dirs ->
  (forall k, (k < length degs)%nat -> nth k ks' 0 = nth k ks 0 + count_occ Nat.eq_dec dirs k)%nat ->
  mixed (fun xs => length xs = length degs) dirs (fun xs => dmbez ks degs xs G) (fun xs => dmbez ks' degs xs G).
Proof.
  induction dirs as [|k dirs IH]; intros ks ks' H1 H2 HF HC.
  - intros xs HX. f_equal. apply (list_ext 0%nat); [congruence|]. intros j Hj. rewrite HC by lia. simpl; lia.
  - inversion HF as [|? ? Hk HF']; subst. exists (fun xs => dmbez (upd_list ks k (S (nth k ks 0%nat))) degs xs G). split.
    + intros xs HX. apply dlim_dmbez; auto.
    + apply IH; auto; [rewrite length_upd; auto|]. intros j Hj. rewrite HC by auto. rewrite nth_upd by lia.
      cbn [count_occ]. destruct (Nat.eqb_spec j k) as [->|Hne].
      * destruct (Nat.eq_dec k k); [lia|congruence].
      * destruct (Nat.eq_dec k j); [congruence|lia].
Qed.

Lemma mixed_ext (D : list R -> Prop) dirs : forall (f f' g g' : list R -> R), (forall xs, f xs = f' xs) -> (forall xs, D xs -> g xs = g' xs) ->
  mixed D dirs f g -> mixed D dirs f' g'.
Proof.
  induction dirs as [|k dirs IH]; intros f f' g g' H1 H2 HM; cbn [mixed] in *.
  - intros xs HX. rewrite <- H1, <- H2 by auto. auto.
  - destruct HM as (h & HP & HM). exists h. split.
    + intros xs HX. eapply dlim_ext; [intros y; apply H1|reflexivity|apply HP; auto].
    + eapply IH; [intros; reflexivity|apply H2|apply HM].
Qed.

Lemma linear_dmbez {V} {ov : VOps R V} (phi : V -> R) : VMod R V -> linear_form phi ->
  forall ks degs xs (G : list nat -> V), phi (dmbez ks degs xs G) = dmbez ks degs xs (fun mi => phi (G mi)).
Proof.
  intros M (HA & HS). assert (H0 : phi v0 = 0) by (pose proof (HA v0 v0) as A; rewrite vm_0 in A; lra).
  intros ks degs. revert ks. induction degs as [|p degs IH]; intros [|k ks] [|x xs] G; try reflexivity.
  cbn [dmbez]. rewrite (vsum_linear phi).
  - apply vsum_ext. intros i Hi. rewrite HS, IH. reflexivity.
  - exact H0.
  - exact HA.
Qed.
