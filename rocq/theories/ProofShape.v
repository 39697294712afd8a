(** Monotone and convex control nets; changes of sign. *)
From Coq Require Import Arith Lia List ZArith Bool Reals Lra.
From Verif Require Import Prelude Scalar Spec SpecSpline ModelBasis ModelSpline ProofIndex ProofEval ProofCasteljau SpecNet ProofNet ProofNet3 SpecShape.
Import ListNotations.
Local Open Scope R_scope.

(** ** Curves of numbers *)
Notation dcR := (dc (T := R) (V := R)).
Lemma dcR_S x f r j : dcR x f (S r) j = (1 - x) * dcR x f r j + x * dcR x f r (S j).
Proof. reflexivity. Qed.
Lemma dcR_0 x f j : dcR x f 0 j = f j.
Proof. reflexivity. Qed.
Lemma dcR_ext x f g r : (forall i, f i = g i) -> forall j, dcR x f r j = dcR x g r j.
Proof. intros H. induction r; intros j; [apply H|]. rewrite !dcR_S, !IHr. reflexivity. Qed.
Lemma dcR_lin x f g a b r : forall j, dcR x (fun i => a * f i + b * g i) r j = a * dcR x f r j + b * dcR x g r j.
Proof. induction r; intros j; [reflexivity|]. rewrite !dcR_S, !IHr. ring. Qed.
Lemma dcR_shift x f r : forall j, dcR x (fun i => f (S i)) r j = dcR x f r (S j).
Proof. induction r; intros j; [reflexivity|]. rewrite !dcR_S, !IHr. reflexivity. Qed.
Lemma dcR_diff x f r j : dcR x (fun i => f (S i) - f i) r j = dcR x f r (S j) - dcR x f r j.
Proof.
  rewrite (dcR_ext x _ (fun i => 1 * f (S i) + -1 * f i)) by (intros; ring). rewrite dcR_lin, dcR_shift. ring.
Qed.
Lemma dcR_const x c r : forall j, dcR x (fun _ => c) r j = c.
Proof. induction r; intros j; [reflexivity|]. rewrite dcR_S, !IHr. ring. Qed.
Lemma dcR_mono x f g r : 0 <= x <= 1 -> forall j, (forall i, (j <= i <= j + r)%nat -> f i <= g i) -> dcR x f r j <= dcR x g r j.
Proof.
  intros Hx. induction r; intros j H; [rewrite !dcR_0; apply H; lia|]. rewrite !dcR_S.
  assert (dcR x f r j <= dcR x g r j) by (apply IHr; intros; apply H; lia).
  assert (dcR x f r (S j) <= dcR x g r (S j)) by (apply IHr; intros; apply H; lia). nra.
Qed.
Lemma dcR_rise x y f r : 0 <= x -> x <= y -> y <= 1 -> forall j, (forall i, (j <= i < j + r)%nat -> f i <= f (S i)) -> dcR x f r j <= dcR y f r j.
Proof.
  intros H0 Hxy H1. induction r; intros j H; [rewrite !dcR_0; lra|]. rewrite !dcR_S.
  assert (A : dcR x f r j <= dcR y f r j) by (apply IHr; intros; apply H; lia).
  assert (B : dcR x f r (S j) <= dcR y f r (S j)) by (apply IHr; intros; apply H; lia).
  assert (C : dcR y f r j <= dcR y f r (S j)).
  { rewrite <- dcR_shift. apply dcR_mono; [lra|]. intros i Hi. apply H. lia. }
  nra.
Qed.
(** The graph is above its tangents. *)
Lemma dcR_tangent x y f r : 0 <= x <= 1 -> 0 <= y <= 1 -> forall j,
  (forall i, (j <= i)%nat -> (i + 2 <= j + r)%nat -> 2 * f (S i) <= f i + f (S (S i))) ->
  dcR x f r j + INR r * (y - x) * dcR x (fun i => f (S i) - f i) (r - 1) j <= dcR y f r j.
Proof.
  intros Hx Hy. induction r as [|r IH]; intros j H; [rewrite !dcR_0; simpl; lra|].
  replace (S r - 1)%nat with r by lia. rewrite S_INR. rewrite (dcR_S x f), (dcR_S y f).
  assert (A := IH j). assert (B := IH (S j)). destruct r as [|r].
  { rewrite !dcR_0. simpl. lra. }
  replace (S r - 1)%nat with r in * by lia. set (df := fun i => f (S i) - f i) in *.
  assert (A' : dcR x f (S r) j + INR (S r) * (y - x) * dcR x df r j <= dcR y f (S r) j) by (apply A; intros; apply H; lia).
  assert (B' : dcR x f (S r) (S j) + INR (S r) * (y - x) * dcR x df r (S j) <= dcR y f (S r) (S j)) by (apply B; intros; apply H; lia).
  assert (C : dcR x df (S r) j = dcR x f (S r) (S j) - dcR x f (S r) j) by apply dcR_diff.
  assert (D : dcR x df r j <= dcR x df r (S j)).
  { rewrite <- dcR_shift. apply dcR_mono; auto. intros i Hi. unfold df. pose proof (H i ltac:(lia) ltac:(lia)). lra. }
  assert (E : dcR x df (S r) j = (1 - x) * dcR x df r j + x * dcR x df r (S j)) by reflexivity.
  assert (P : 0 <= INR (S r)) by apply pos_INR. clear A B IH H.
  set (n := INR (S r)) in *. set (F0 := dcR x f (S r) j) in *. set (F1 := dcR x f (S r) (S j)) in *. set (G0 := dcR x df r j) in *. set (G1 := dcR x df r (S j)) in *.
  set (Y0 := dcR y f (S r) j) in *. set (Y1 := dcR y f (S r) (S j)) in *. set (K := dcR x df (S r) j) in *.
  assert (X : (1 - y) * (F0 + n * (y - x) * G0) + y * (F1 + n * (y - x) * G1) <= (1 - y) * Y0 + y * Y1) by nra.
  assert (Q : 0 <= n * ((y - x) * (y - x) * (G1 - G0))).
  { apply Rmult_le_pos; auto. apply Rmult_le_pos; [apply Rle_0_sqr|lra]. }
  replace ((1 - x) * F0 + x * F1 + (n + 1) * (y - x) * K) with
    ((1 - y) * (F0 + n * (y - x) * G0) + y * (F1 + n * (y - x) * G1) - n * ((y - x) * (y - x) * (G1 - G0))
     + ((y - x) * (K - (F1 - F0)) + n * (y - x) * (K - ((1 - x) * G0 + x * G1)))) by ring.
  assert (Z1 : K - (F1 - F0) = 0) by lra. assert (Z2 : K - ((1 - x) * G0 + x * G1) = 0) by lra. rewrite Z1, Z2. lra.
Qed.
Lemma dcR_convex y z t f p : 0 <= y <= 1 -> 0 <= z <= 1 -> 0 <= t <= 1 ->
  (forall i, (i + 2 <= p)%nat -> 2 * f (S i) <= f i + f (S (S i))) ->
  dcR ((1 - t) * y + t * z) f p 0 <= (1 - t) * dcR y f p 0 + t * dcR z f p 0.
Proof.
  intros Hy Hz Ht H. set (x := (1 - t) * y + t * z). assert (Hx : 0 <= x <= 1) by (unfold x; nra).
  pose proof (dcR_tangent x y f p Hx Hy 0 ltac:(intros; apply H; lia)) as A. pose proof (dcR_tangent x z f p Hx Hz 0 ltac:(intros; apply H; lia)) as B.
  set (G := dcR x (fun i => f (S i) - f i) (p - 1) 0) in *. set (n := INR p) in *.
  apply (Rmult_le_compat_l (1 - t)) in A; [|lra]. apply (Rmult_le_compat_l t) in B; [|lra].
  assert (E : (1 - t) * (n * (y - x) * G) + t * (n * (z - x) * G) = 0) by (unfold x; ring). lra.
Qed.
(** The part of the curve from 0 to x has the control points dc x f i 0. *)
Lemma dcR_left x t f r : forall i, dcR t (fun i => dcR x f i 0) r i = dcR x (dcR (x * t) f r) i 0.
Proof.
  induction r; intros i; [reflexivity|]. rewrite dcR_S, !IHr. rewrite (dcR_ext x (dcR (x * t) f (S r)) (fun i => (1 - x * t) * dcR (x * t) f r i + x * t * dcR (x * t) f r (S i))) by reflexivity.
  rewrite dcR_lin, dcR_shift, dcR_S. ring.
Qed.

Lemma F2_impl {A B} (P Q : A -> B -> Prop) l l' : (forall a b, P a b -> Q a b) -> Forall2 P l l' -> Forall2 Q l l'.
Proof. intros H F. induction F; constructor; auto. Qed.
Lemma F2_map_l {A B C} (g : C -> A) (P : A -> B -> Prop) l : forall l', Forall2 (fun c b => P (g c) b) l l' -> Forall2 P (map g l) l'.
Proof. induction l; intros l' F; inversion F; subst; constructor; auto. Qed.
Lemma increasing_map {A B} (P : A -> A -> Prop) (Q : B -> B -> Prop) (g : A -> B) l : (forall a b, P a b -> Q (g a) (g b)) -> increasing P l -> increasing Q (map g l).
Proof. intros H. induction l as [|a l IH]; [auto|]. destruct l as [|b l]; [auto|]. intros (H1 & H2). split; [auto|]. apply IH. exact H2. Qed.

(** ** Changes of sign *)
Lemma sign_mix a b t g : 0 <= t <= 1 -> same_sign ((1 - t) * a + t * b) g -> same_sign a g \/ same_sign b g.
Proof. unfold same_sign. intros Ht H. destruct (Rlt_dec 0 (a * g)); auto. destruct (Rlt_dec 0 (b * g)); auto. exfalso. nra. Qed.
Lemma alternating_sign v : forall l l', Forall2 same_sign l l' -> alternating (v :: l') -> forall u, same_sign u v -> alternating (u :: l).
Proof.
  unfold same_sign. intros l l' H. revert v. induction H as [|a b l l' Hab H IH]; intros v HA u Hu.
  - cbn in *. intros ->. lra.
  - destruct HA as (H1 & H2). split; [|eapply IH; eauto].
    assert (S1 : 0 < u * v * (a * b)) by (apply Rmult_lt_0_compat; auto). replace (u * v * (a * b)) with ((u * a) * (v * b)) in S1 by ring. nra.
Qed.
Definition lifts (g f : nat -> R) (n m c : nat) : Prop :=
  forall j v, (j <= n)%nat -> same_sign (g j) v -> exists i, (i <= m)%nat /\ (i = j + c \/ i + 1 = j + c)%nat /\ same_sign (f i) v.
(** Decreasing lists of indices. *)
Lemma lift_pattern g f n m c : lifts g f n m c -> forall js vs, Forall (fun j => (j <= n)%nat) js -> increasing gt js -> alternating vs ->
  Forall2 (fun j v => same_sign (g j) v) js vs ->
  exists is, Forall (fun i => (i <= m)%nat) is /\ increasing gt is /\ Forall2 (fun i v => same_sign (f i) v) is vs /\
    match js, is with j :: _, i :: _ => (i = j + c \/ i + 1 = j + c)%nat | _, _ => True end.
Proof.
  intros HL js. induction js as [|j js IH]; intros vs HF HI HA HS; inversion HS as [|? v ? vs' Hjv HS']; subst.
  { exists []. repeat split; constructor. }
  inversion HF as [|? ? Hj HF']; subst. destruct (HL j v Hj Hjv) as (i & Hi & Hc & Hs).
  destruct (IH vs') as (is & I1 & I2 & I3 & I4); auto.
  { destruct js; [exact I|apply HI]. }
  { destruct vs' as [|w vs']; [exact I|apply HA]. }
  exists (i :: is). split; [constructor; auto|]. split; [|split; [constructor; auto|exact Hc]].
  destruct is as [|i2 is]; [exact I|]. split; [|exact I2].
  inversion I3 as [|? w ? vs'' Hw I3']; subst. inversion HS' as [|j2 ? js2 ? Hj2 HS'']; subst. destruct HI as (HI & _). cbn in HA. destruct HA as (HA & _).
  assert (i <> i2).
  { intros <-. unfold same_sign in *. assert (S1 : 0 < f i * v * (f i * w)) by (apply Rmult_lt_0_compat; auto).
    replace (f i * v * (f i * w)) with (f i * f i * (v * w)) in S1 by ring. pose proof (Rle_0_sqr (f i)) as Q. unfold Rsqr in Q. nra. }
  lia.
Qed.
Definition stage (x : R) (f : nat -> R) (r i : nat) : R := if (i <? r)%nat then dcR x f i 0 else dcR x f r (i - r).
Lemma stage_lifts x f r p : 0 <= x <= 1 -> lifts (stage x f (S r)) (stage x f r) p p 0.
Proof.
  intros Hx j v Hj Hs. unfold stage in *. destruct (Nat.ltb_spec j (S r)) as [H|H].
  - exists j. split; [auto|]. split; [lia|]. destruct (Nat.ltb_spec j r); auto. replace j with r in * by lia. rewrite Nat.sub_diag. exact Hs.
  - destruct j as [|j]; [lia|]. replace (S j - S r)%nat with (j - r)%nat in Hs by lia. rewrite dcR_S in Hs. apply sign_mix in Hs; auto. destruct Hs as [Hs|Hs].
    + exists j. split; [lia|]. split; [lia|]. destruct (Nat.ltb_spec j r); [lia|exact Hs].
    + exists (S j). split; [lia|]. split; [lia|]. destruct (Nat.ltb_spec (S j) r); [lia|]. replace (S j - r)%nat with (S (j - r)) by lia. exact Hs.
Qed.
Lemma left_pattern x f p : 0 <= x <= 1 -> forall js vs, Forall (fun j => (j <= p)%nat) js -> increasing gt js -> alternating vs ->
  Forall2 (fun j v => same_sign (dcR x f j 0) v) js vs ->
  exists is, Forall (fun i => (i <= p)%nat) is /\ increasing gt is /\ Forall2 (fun i v => same_sign (f i) v) is vs.
Proof.
  intros Hx. assert (G : forall r js vs, Forall (fun j => (j <= p)%nat) js -> increasing gt js -> alternating vs ->
    Forall2 (fun j v => same_sign (stage x f r j) v) js vs ->
    exists is, Forall (fun i => (i <= p)%nat) is /\ increasing gt is /\ Forall2 (fun i v => same_sign (f i) v) is vs).
  { induction r; intros js vs H1 H2 H3 H4.
    - exists js. repeat split; auto. eapply F2_impl; [|exact H4]. intros a b. unfold stage. cbn. rewrite Nat.sub_0_r. auto.
    - destruct (lift_pattern _ _ p p 0 (stage_lifts x f r p Hx) js vs H1 H2 H3 H4) as (is & A & B & C & _). eapply IHr; eauto. }
  intros js vs H1 H2 H3 H4. apply (G (S p) js vs); auto. clear - H1 H4. induction H4; constructor; inversion H1; subst; auto.
  unfold stage. destruct (Nat.ltb_spec x0 (S p)); [auto|lia].
Qed.
Lemma dcR_sign x f p v : 0 <= x <= 1 -> same_sign (dcR x f p 0) v -> exists i, (i <= p)%nat /\ same_sign (f i) v.
Proof.
  intros Hx. assert (G : forall r j, same_sign (dcR x f r j) v -> exists i, (j <= i <= j + r)%nat /\ same_sign (f i) v).
  { induction r; intros j H; [exists j; split; [lia|exact H]|]. rewrite dcR_S in H. apply sign_mix in H; auto. destruct H as [H|H]; apply IHr in H; destruct H as (i & Hi & H); exists i; split; auto; lia. }
  intros H. destruct (G p 0%nat H) as (i & Hi & Hs). exists i. split; auto. lia.
Qed.
Lemma variation_desc p n : forall (xs vs : list R) (f : nat -> R), length xs = n -> increasing Rgt xs -> Forall (fun x => 0 <= x <= 1) xs -> alternating vs ->
  Forall2 (fun x v => same_sign (dcR x f p 0) v) xs vs ->
  exists is, Forall (fun i => (i <= p)%nat) is /\ increasing gt is /\ Forall2 (fun i v => same_sign (f i) v) is vs.
Proof.
  induction n as [|n IH]; intros xs vs f HN HI HF HA HS; destruct xs as [|x xs]; try discriminate; inversion HS as [|? v ? vs' Hx HS']; subst.
  { exists []. repeat split; constructor. }
  inversion HF as [|? ? Bx HF']; subst. destruct xs as [|x' xs].
  { inversion HS'; subst. destruct (dcR_sign x f p v Bx Hx) as (i & Hi & Hs). exists [i]. repeat split; constructor; auto. }
  destruct HI as (Hxx & HI). inversion HS' as [|? v' ? vs'' Hx' HS'']; subst. destruct HA as (Hvv & HA).
  assert (Px : 0 < x) by (inversion HF' as [|? ? B' _]; subst; lra).
  set (Q := fun i => dcR x f i 0).
  assert (V : forall y, dcR (y / x) Q p 0 = dcR y f p 0).
  { intros y. unfold Q. rewrite dcR_left, dcR_0. f_equal. field. lra. }
  assert (Pi : 0 < / x) by (apply Rinv_0_lt_compat; auto).
  assert (HB : Forall (fun y => 0 <= y <= x) (x' :: xs)).
  { clear - HI HF' Hxx. revert x' Hxx HI HF'. induction xs as [|z xs IHx]; intros x' Hxx HI HF'; inversion HF' as [|? ? B1 B2]; subst; constructor; [lra|constructor|lra|].
    destruct HI as (H1 & H2). apply IHx; auto. lra. }
  destruct (IH (map (fun y => y / x) (x' :: xs)) (v' :: vs'') Q) as (is & I1 & I2 & I3).
  { rewrite map_length. cbn in *. lia. }
  { eapply increasing_map; [|exact HI]. intros a b Hab. unfold Rgt, Rdiv in *. apply Rmult_lt_compat_r; auto. }
  { apply Forall_map. eapply Forall_impl; [|exact HB]. cbn beta. intros y Hy. unfold Rdiv. split; [nra|]. apply (Rmult_le_reg_r x); auto. rewrite Rmult_assoc, Rinv_l by lra. lra. }
  { exact HA. }
  { apply F2_map_l. eapply F2_impl; [|exact HS']. cbn beta. intros a b. rewrite V. auto. }
  apply (left_pattern x f p Bx (p :: is) (v :: v' :: vs'')); auto.
  - destruct is as [|i is]; [inversion I3|]. split; [|exact I2]. inversion I3 as [|? ? ? ? Hi _]; subst. inversion I1 as [|? ? Hle _]; subst.
    assert (i <> p).
    { intros ->. unfold same_sign, Q in *. assert (S1 : 0 < dcR x f p 0 * v * (dcR x f p 0 * v')) by (apply Rmult_lt_0_compat; auto).
      replace (dcR x f p 0 * v * (dcR x f p 0 * v')) with (dcR x f p 0 * dcR x f p 0 * (v * v')) in S1 by ring. pose proof (Rle_0_sqr (dcR x f p 0)) as Z. unfold Rsqr in Z. nra. }
    lia.
  - split; auto.
Qed.
