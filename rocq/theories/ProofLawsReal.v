(** Derivative splines: rules of differentiation. *)
From Coq Require Import Arith Lia List ZArith NArith Bool Ring Field Reals Lra.
From Verif Require Import Prelude Scalar Spec SpecSpline SpecReal SpecLaws Sums Order Coord ModelBasis ModelSpline ModelPoint
  ModelRational SpecRational ProofIndex ProofBasis ProofEval ProofElevate ProofUnique ClaimsA ProofArith ClaimsB ProofCube ClaimsC
  ProofMul ProofSplit ClaimsD ProofCompose ClaimsE ProofDeriv ProofDerivSpline ProofReal ClaimsF ClaimsI ProofLaws ClaimsV.
Import ListNotations.
Local Open Scope nat_scope.

Lemma length_single n k : length (single n k) = n.
Proof. unfold single. now rewrite length_upd, repeat_length. Qed.
Lemma nth_single n k j : k < n -> nth j (single n k) 0 = if j =? k then 1 else 0.
Proof. intros H. unfold single. rewrite nth_upd by now rewrite repeat_length. rewrite nth_repeat. reflexivity. Qed.
Lemma single_dirs n k : k < n -> directions_of (single n k) [k].
Proof.
  intros H. split; [rewrite length_single; constructor; auto|]. rewrite length_single. intros j Hj. rewrite nth_single by auto.
  cbn [count_occ]. destruct (Nat.eq_dec k j) as [->|]; [now rewrite Nat.eqb_refl|]. rewrite (proj2 (Nat.eqb_neq j k)); auto.
Qed.
Lemma single_le n k D : length D = n -> k < n -> 1 <= nth k D 0 -> Forall2 le (single n k) D.
Proof.
  intros HL Hk H. apply Forall2_nth_le; [now rewrite length_single|]. intros j Hj. rewrite nth_single by auto.
  destruct (Nat.eqb_spec j k) as [->|]; lia.
Qed.
Lemma single_lt m n k : 1 < m -> Forall (fun p => p < m) (single n k).
Proof.
  intros H. apply Forall_forall. intros p Hp. destruct (In_nth _ _ 0 Hp) as (j & Hj & <-). rewrite length_single in Hj.
  unfold single. destruct (Nat.lt_ge_cases k n); [fold (single n k); rewrite nth_single by auto; destruct (j =? k); lia|].
  assert (E : nth j (upd_list (repeat 0 n) k 1) 0 = 0); [|lia].
  rewrite nth_upd_other by lia. apply nth_repeat.
Qed.

Lemma open_length n : open_in n (fun xs : list R => length xs = n).
Proof. intros xs k HX Hk. exists 1%R. split; [lra|]. intros. now rewrite length_upd. Qed.

(** ** Sums of mixed derivatives *)
Lemma mixed_plus (D : list R -> Prop) dirs : forall f g f' g' : list R -> R,
  mixed D dirs f f' -> mixed D dirs g g' -> mixed D dirs (fun xs => (f xs + g xs)%R) (fun xs => (f' xs + g' xs)%R).
Proof.
  induction dirs as [|k dirs IH]; intros f g f' g' H H'; cbn [mixed] in *.
  - intros xs HX. now rewrite H, H'.
  - destruct H as (h & P & H). destruct H' as (h' & P' & H'). exists (fun xs => (h xs + h' xs)%R). split; [|apply IH; auto].
    intros xs HX. apply (dlim_plus (fun y => f (upd_list xs k y)) (fun y => g (upd_list xs k y))); [apply P|apply P']; auto.
Qed.
Lemma mixed_scal (D : list R -> Prop) dirs c : forall f f' : list R -> R,
  mixed D dirs f f' -> mixed D dirs (fun xs => (c * f xs)%R) (fun xs => (c * f' xs)%R).
Proof.
  induction dirs as [|k dirs IH]; intros f f' H; cbn [mixed] in *.
  - intros xs HX. now rewrite H.
  - destruct H as (h & P & H). exists (fun xs => (c * h xs)%R). split; [|apply IH; auto].
    intros xs HX. apply (dlim_scal c (fun y => f (upd_list xs k y))). apply P; auto.
Qed.
Lemma mixed_one (D : list R -> Prop) n k (f g : list R -> R) : open_in n D -> k < n -> mixed D [k] f g <-> partial D k f g.
Proof.
  intros HO Hk. split.
  - intros (h & P & H). cbn [mixed] in H. intros xs HX. rewrite <- H by auto. apply P; auto.
  - intros P. exists g. split; auto. intros xs HX. reflexivity.
Qed.

(** ** Derivative splines *)
Section D.
Context {V : Type} {ov : VOps R V} {M : VMod R V}.
Notation dom D := (fun xs : list R => length xs = length D).

Lemma deriv_isv MAXB (s : spline V) D f orders : MAXB <= 68 -> isv s D f -> length orders = length D ->
  Forall2 le orders D -> Forall (fun k => k < MAXB) orders ->
  exists r g, DerivativeWRT MAXB s orders = Ok r /\ isv r (map2 Nat.sub D orders) g /\
    forall (phi : V -> R) dirs, linear_form phi -> directions_of orders dirs ->
      mixed (dom D) dirs (fun xs => phi (f xs)) (fun xs => phi (g xs)).
Proof.
  intros HB (Hs & <- & HV) HL Hle HM.
  destruct (DerivativeWRT_ok MAXB HB s orders Hs HL Hle HM) as (r & E & Hr & Hd & HV').
  exists r, (fun xs => dmbez orders (degrees s) xs (fun mi => nth (position (degrees s) mi) (control_points s) v0)).
  split; auto. split.
  - split; [exact Hr|]. split; [exact Hd|]. intros xs HX. rewrite length_map2 in HX by (symmetry; auto). apply HV'. auto.
  - intros phi dirs HP HD. eapply (mixed_ext_open (length (degrees s))); [apply open_length| | | |apply (mixed_spline M s orders dirs phi Hs HL HD HP)].
    + destruct HD as (HD & _). rewrite HL in HD. exact HD.
    + intros xs HX. cbv beta in *. now rewrite HV.
    + reflexivity.
Qed.

Lemma deriv_is MAXB (s r : spline V) D E f g orders dirs : separated (V := V) -> MAXB <= 68 -> isv s D f -> length orders = length D ->
  Forall2 le orders D -> Forall (fun k => k < MAXB) orders -> directions_of orders dirs ->
  isv r E g -> E = map2 Nat.sub D orders ->
  (forall phi : V -> R, linear_form phi -> mixed (dom D) dirs (fun xs => phi (f xs)) (fun xs => phi (g xs))) ->
  DerivativeWRT MAXB s orders = Ok r.
Proof.
  intros HSep HB Hs HL Hle HM HD Hr -> Hmix.
  destruct (deriv_isv MAXB s D f orders HB Hs HL Hle HM) as (r' & g' & E & Hr' & HX).
  rewrite E. f_equal. eapply isv_unique; [exact Hr'|exact Hr|]. intros xs Hxs. rewrite length_map2 in Hxs by (symmetry; auto).
  apply HSep. intros phi HP. destruct HD as (HD & HC). pose proof (conj HD HC) as HDD. rewrite HL in HD.
  eapply (mixed_unique (length D) (dom D) dirs (open_length _) HD (fun xs => phi (f xs)) (fun xs => phi (f xs)) (fun xs => phi (g' xs)) (fun xs => phi (g xs)) (fun _ _ => eq_refl));
    [apply (HX phi dirs HP HDD)|apply Hmix; auto|exact Hxs].
Qed.
End D.

Lemma separated_scalar : separated (V := R).
Proof. intros a b H. apply (H (fun x => x)). split; reflexivity. Qed.
Lemma linear_coord d k : linear_form (fun p : point R d => coord d p k).
Proof. split; intros; [exact (coord_add (F := SField_R) d a b k)|exact (coord_scale (F := SField_R) d c a k)]. Qed.
Lemma separated_point d : separated (V := point R d).
Proof. intros a b H. apply point_ext. intros k Hk. apply (H (fun p => coord d p k)). apply linear_coord. Qed.

(** ** Lists of degrees *)
Lemma nth_map2_max A : forall B k, length B = length A -> k < length A -> nth k (map2 Nat.max A B) 0 = Nat.max (nth k A 0) (nth k B 0).
Proof. induction A as [|a A IH]; intros [|b B] [|k] H Hk; try discriminate; simpl in *; try lia. apply IH; lia. Qed.
Lemma sub_max A : forall B O, length B = length A -> length O = length A ->
  map2 Nat.sub (map2 Nat.max A B) O = map2 Nat.max (map2 Nat.sub A O) (map2 Nat.sub B O).
Proof. induction A as [|a A IH]; intros [|b B] [|c O] H H'; try discriminate; auto. cbn [map2]. f_equal; [lia|apply IH; simpl in *; lia]. Qed.
Lemma sub_add_l A : forall B O, length B = length A -> length O = length A -> Forall2 le O A ->
  map2 Nat.add (map2 Nat.sub A O) B = map2 Nat.sub (map2 Nat.add A B) O.
Proof.
  induction A as [|a A IH]; intros [|b B] [|c O] H H' HL; try discriminate; auto. inversion HL; subst. cbn [map2].
  f_equal; [lia|apply IH; simpl in *; auto].
Qed.
Lemma sub_sub A : forall O P, length O = length A -> length P = length A ->
  map2 Nat.sub (map2 Nat.sub A O) P = map2 Nat.sub A (map2 Nat.add O P).
Proof. induction A as [|a A IH]; intros [|b O] [|c P] H H'; try discriminate; auto. cbn [map2]. f_equal; [lia|apply IH; simpl in *; lia]. Qed.
Lemma sub_le A : forall O, length O = length A -> Forall2 le (map2 Nat.sub A O) A.
Proof. induction A as [|a A IH]; intros [|c O] H; try discriminate; constructor; [lia|apply IH; simpl in *; lia]. Qed.
Lemma le_trans2 A B C : Forall2 le A B -> Forall2 le B C -> Forall2 le A C.
Proof. intros H. revert C. induction H; intros C H'; inversion H'; subst; constructor; [lia|auto]. Qed.
