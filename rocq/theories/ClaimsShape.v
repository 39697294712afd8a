(** Shape of the control net and of the spline. *)
From Coq Require Import Arith Lia List ZArith Bool Reals Lra.
From Verif Require Import Prelude Scalar Spec SpecSpline SpecReal Coord Sums ModelBasis ModelPoint ModelSpline ModelRational SpecRational ProofIndex ProofEval ProofCasteljau
  ProofBasis ProofElevate ProofMul ProofSplit ProofDerivSpline ProofRaw ProofSeam ProofRoundOps ProofRoundEval ProofParam SpecNet ProofNet ProofNet3 ProofNet4 SpecShape ProofShape ProofShape2 ClaimsA ClaimsD ClaimsG ClaimsNet.
Import ListNotations.
Local Open Scope R_scope.

Lemma c109_forms :
  affine_form (V := R) (fun x => x) /\
  (forall d k, affine_form (fun p : point R d => coord d p k)) /\
  (forall (V : Type) (ov : VOps R V) (phi : V -> R), linear_form phi -> affine_form phi) /\
  (forall (V : Type) (ov : VOps R V) (phi psi : V -> R) (a b c : R), affine_form phi -> affine_form psi ->
     affine_form (fun v => a * phi v + b * psi v + c)).
Proof.
  split; [intros a b t; reflexivity|]. split.
  { intros d k a b t. destruct (Nat.lt_ge_cases k d) as [H|H].
    - rewrite coord_add, !coord_scale by auto. reflexivity.
    - unfold coord. rewrite !nth_overflow by (rewrite plist_length; auto). cbn. change R0 with 0. lra. }
  split.
  - intros V ov phi (H1 & H2) a b t. rewrite H1, !H2. reflexivity.
  - intros V ov phi psi a b c H1 H2 u v t. rewrite H1, H2. ring.
Qed.

Lemma c109_monotone : forall (V : Type) (ov : VOps R V) (M : VMod R V) (phi : V -> R) (s : spline V) (k : nat) (xs : list R) (y : R),
  affine_form phi -> wf s -> (k < length (degrees s))%nat -> rising phi s k ->
  length xs = length (degrees s) -> Forall (fun x => 0 <= x <= 1) xs -> nth k xs 0 <= y <= 1 ->
  exists v w, Evaluate s xs = Ok v /\ Evaluate s (upd_list xs k y) = Ok w /\ phi v <= phi w.
Proof.
  intros V ov M phi s k xs y HP Hw Hk HR HL HF Hy. do 2 eexists. split; [apply evaluate_mbez; auto|]. split; [apply evaluate_mbez; [auto|rewrite length_upd; auto]|].
  rewrite !(phi_mbez phi HP) by (rewrite ?length_upd; auto). apply md_rise; auto. intros idx HV Hn. specialize (HR idx HV Hn).
  unfold along in HR. rewrite Nat.add_0_r, net_here in HR. exact HR.
Qed.

Lemma c109_convex : forall (V : Type) (ov : VOps R V) (M : VMod R V) (phi : V -> R) (s : spline V) (k : nat) (xs : list R) (y z t : R),
  affine_form phi -> wf s -> (k < length (degrees s))%nat -> convex_net phi s k ->
  length xs = length (degrees s) -> Forall (fun x => 0 <= x <= 1) xs -> 0 <= y <= 1 -> 0 <= z <= 1 -> 0 <= t <= 1 ->
  exists u v w, Evaluate s (upd_list xs k y) = Ok u /\ Evaluate s (upd_list xs k z) = Ok v /\
    Evaluate s (upd_list xs k ((1 - t) * y + t * z)) = Ok w /\ phi w <= (1 - t) * phi u + t * phi v.
Proof.
  intros V ov M phi s k xs y z t HP Hw Hk HR HL HF Hy Hz Ht. do 3 eexists.
  do 3 (split; [apply evaluate_mbez; [auto|rewrite length_upd; auto]|]).
  rewrite !(phi_mbez phi HP) by (rewrite ?length_upd; auto). apply md_convex; auto. intros idx HV Hn. specialize (HR idx HV Hn).
  unfold along in HR. rewrite Nat.add_0_r, net_here in HR. exact HR.
Qed.

Lemma c109_split : forall (V : Type) (ov : VOps R V) (M : VMod R V) (phi : V -> R) (s : spline V) (x : R) (k : nat),
  affine_form phi -> wf s -> (k < length (degrees s))%nat -> 0 < x < 1 ->
  exists a b, SplitAtPosition s x k = Ok [a; b] /\ forall j, (j < length (degrees s))%nat ->
    (rising phi s j -> rising phi a j /\ rising phi b j) /\ (convex_net phi s j -> convex_net phi a j /\ convex_net phi b j).
Proof.
  intros V ov M phi s x k HP Hw Hk Hx. destruct (split_net s x k Hw Hk Hx) as (a & b & E & _). exists a, b. split; [auto|]. intros j Hj.
  destruct (keeps_split (negl phi) (negl_sublinear phi HP) k s s 1 x a b (keeps_refl _ k s Hw) Hk Hx E) as ((_ & _ & Ka) & (_ & _ & Kb)).
  destruct (Ka j 0 Hj) as (A1 & A2). destruct (Kb j 0 Hj) as (B1 & B2). rewrite Rmult_0_r in *.
  rewrite !(rising_steps phi HP), !(convex_bends phi HP). auto.
Qed.

Lemma c109_splits : forall (V : Type) (ov : VOps R V) (M : VMod R V) (phi : V -> R) (s : spline V) (planes : list R) (k : nat),
  affine_form phi -> wf s -> (k < length (degrees s))%nat ->
  let bounds := 0 :: planes ++ [1] in
  (forall i, (S i < length bounds)%nat -> nth i bounds 0 < nth (S i) bounds 0) ->
  exists parts, SplitAtPositions s planes k = Ok parts /\ length parts = S (length planes) /\
    forall q j, In q parts -> (j < length (degrees s))%nat ->
      (rising phi s j -> rising phi q j) /\ (convex_net phi s j -> convex_net phi q j).
Proof.
  intros V ov M phi s planes k HP Hw Hk bounds HB.
  destruct (c33_multi_split R V _ _ _ _ _ s planes k Hw Hk) as (parts & E & HL & _).
  { intros i Hi. apply slt_Rlt. apply HB. exact Hi. }
  exists parts. split; [exact E|]. split; [exact HL|]. intros q j Hq Hj.
  destruct (keeps_planes (negl phi) (negl_sublinear phi HP) k s planes parts Hw Hk HB E) as (_ & HK).
  apply (In_nth _ _ s) in Hq. destruct Hq as (i & Hi & <-). destruct (HK i ltac:(lia)) as (_ & _ & X). destruct (X j 0 Hj) as (X1 & X2). rewrite Rmult_0_r in *.
  rewrite !(rising_steps phi HP), !(convex_bends phi HP). auto.
Qed.

Lemma c109_elevate : forall (V : Type) (ov : VOps R V) (M : VMod R V) (phi : V -> R) (s : spline V) (k : nat),
  affine_form phi -> wf s -> (k < length (degrees s))%nat ->
  (Z.of_nat (n_coeffs (upd_list (degrees s) k (nth k (degrees s) 0 + 1)%nat)) < 2 ^ 31)%Z ->
  exists e, OrderElevate (T := R) s k = Ok e /\ forall j, (j < length (degrees s))%nat ->
    (rising phi s j -> rising phi e j) /\ (convex_net phi s j -> convex_net phi e j).
Proof.
  intros V ov M phi s k HP Hw Hk Hz. destruct (elevate_net s k Hw Hk Hz) as (e & E & _). exists e. split; [exact E|]. intros j Hj.
  destruct (elevate_keeps (negl phi) (negl_sublinear phi HP) s e k Hw Hk Hz E j 0 Hj) as (X1 & X2). rewrite Rmult_0_r in *.
  rewrite !(rising_steps phi HP), !(convex_bends phi HP). auto.
Qed.

Lemma curve_value {V} {ov : VOps R V} {M : VMod R V} (phi : V -> R) (s : spline V) p x v : affine_form phi -> wf s -> degrees s = [p] -> Evaluate s [x] = Ok v ->
  phi v = dcR x (fun i => phi (nth i (control_points s) v0)) p 0.
Proof.
  intros HP Hw Hd E. rewrite (evaluate_mbez s [x] Hw) in E by (rewrite Hd; reflexivity). injection E as <-. rewrite (phi_mbez phi HP) by (rewrite Hd; reflexivity).
  rewrite Hd. cbn [md]. apply dcR_ext. intros i. unfold net. rewrite Hd. cbn [position]. do 2 f_equal. lia.
Qed.
Lemma alternating_same l l' : Forall2 same_sign l l' -> alternating l' -> alternating l.
Proof. intros H. destruct H as [|a b l l' Hab H]; [auto|]. intros HA. eapply alternating_sign; eauto. Qed.
Lemma same_refl v : v <> 0 -> same_sign v v.
Proof. intros H. unfold same_sign. nra. Qed.
Lemma alternating_nonzero l : alternating l -> Forall (fun v => v <> 0) l.
Proof.
  induction l as [|a l IH]; [constructor|]. destruct l as [|b l]; [intros H; constructor; auto|]. intros (H1 & H2). constructor; [|auto]. intros ->. lra.
Qed.

Lemma F2_length {A B} (P : A -> B -> Prop) l l' : Forall2 P l l' -> length l = length l'.
Proof. induction 1; cbn; auto. Qed.

Lemma c109_variation : forall (V : Type) (ov : VOps R V) (M : VMod R V) (phi : V -> R) (s : spline V) (p : nat) (xs : list R) (vs : list V),
  affine_form phi -> wf s -> degrees s = [p] ->
  increasing Rlt xs -> Forall (fun x => 0 <= x <= 1) xs -> Forall2 (fun x v => Evaluate s [x] = Ok v) xs vs ->
  alternating (map phi vs) ->
  exists is : list nat, increasing lt is /\ Forall (fun i => (i < length (control_points s))%nat) is /\ length is = length xs /\
    alternating (map (fun i => phi (nth i (control_points s) v0)) is) /\
    Forall2 (fun i v => same_sign (phi (nth i (control_points s) v0)) (phi v)) is vs.
Proof.
  intros V ov M phi s p xs vs HP Hw Hd HI HF HE HA.
  destruct (variation p xs (map phi vs) (fun i => phi (nth i (control_points s) v0)) HI HF HA) as (is & I1 & I2 & I3).
  { pose proof (alternating_nonzero _ HA) as HN. clear HI HF HA. induction HE as [|x v xs vs Hx HE IH]; cbn [map] in *; constructor; inversion HN; subst; auto.
    rewrite <- (curve_value phi s p x v HP Hw Hd Hx). apply same_refl. auto. }
  exists is. split; [exact I2|]. split.
  { eapply Forall_impl; [|exact I1]. cbn beta. intros i Hi. destruct Hw as (_ & _ & _ & ->). rewrite Hd. cbn. lia. }
  assert (L2 : length is = length vs) by (apply F2_length in I3; rewrite map_length in I3; auto).
  split; [apply F2_length in HE; lia|]. split.
  - apply (alternating_same _ (map phi vs)); auto. apply F2_map_l. exact I3.
  - clear - I3. revert vs I3. induction is as [|i is IH]; intros [|v vs] H; inversion H; subst; constructor; auto.
Qed.

(** Reading a list backwards. *)
Lemma increasing_nth {A} (P : A -> A -> Prop) d l : increasing P l <-> forall i, (S i < length l)%nat -> P (nth i l d) (nth (S i) l d).
Proof.
  induction l as [|a l IH]; [split; [intros _ i Hi; cbn in Hi; lia|constructor]|]. destruct l as [|b l]; [split; [intros _ i Hi; cbn in Hi; lia|constructor]|].
  split.
  - intros (H1 & H2) [|i] Hi; [exact H1|]. cbn [nth]. apply IH; auto. cbn in *. lia.
  - intros H. split; [apply (H 0%nat); cbn; lia|]. apply IH. intros i Hi. apply (H (S i)). cbn in *. lia.
Qed.
Lemma increasing_rev {A} (P : A -> A -> Prop) l : increasing P l -> increasing (fun a b => P b a) (rev l).
Proof.
  destruct l as [|d l']; [auto|]. set (l := d :: l'). rewrite !(increasing_nth _ d). intros H i Hi. rewrite rev_length in Hi.
  rewrite !rev_nth by lia. replace (length l - S i)%nat with (S (length l - S (S i))) by lia. apply H. lia.
Qed.
Lemma alternating_iff l : alternating l <-> Forall (fun v => v <> 0) l /\ increasing (fun a b => a * b < 0) l.
Proof.
  split; [intros H; split; [apply alternating_nonzero; auto|]|].
  - induction l as [|a l IH]; [constructor|]. destruct l as [|b l]; [constructor|]. destruct H as (H1 & H2). split; [exact H1|]. apply IH. exact H2.
  - intros (H1 & H2). induction l as [|a l IH]; [constructor|]. destruct l as [|b l]; [inversion H1; auto|]. destruct H2 as (H2 & H3). split; [exact H2|]. apply IH; auto. inversion H1; auto.
Qed.
Lemma alternating_rev l : alternating l -> alternating (rev l).
Proof.
  rewrite !alternating_iff. intros (H1 & H2). split; [apply Forall_rev; auto|]. apply increasing_rev in H2.
  refine (increasing_impl _ _ (fun _ => True) (rev l) _ _ H2); [intros; nra|]. clear. induction (rev l); constructor; auto.
Qed.
Lemma F2_rev {A B} (P : A -> B -> Prop) l l' : Forall2 P l l' -> Forall2 P (rev l) (rev l').
Proof. induction 1; [constructor|]. cbn [rev]. apply Forall2_app; auto. Qed.
Lemma carries_of g n f m : (forall js vs, Forall (fun j => (j <= n)%nat) js -> increasing gt js -> alternating vs ->
  Forall2 (fun j v => same_sign (g j) v) js vs ->
  exists is, Forall (fun i => (i <= m)%nat) is /\ increasing gt is /\ Forall2 (fun i v => same_sign (f i) v) is vs) -> no_more_changes g n f m.
Proof.
  intros H js (H1 & H2 & H3). destruct (H (rev js) (rev (map g js))) as (is & I1 & I2 & I3).
  - apply Forall_rev. exact H2.
  - apply increasing_rev in H1. exact H1.
  - apply alternating_rev. exact H3.
  - apply F2_rev. pose proof (alternating_nonzero _ H3) as HN. clear - HN. induction js; cbn [map] in *; inversion HN; subst; constructor; auto. apply same_refl. auto.
  - apply F2_rev in I3. rewrite rev_involutive in I3. exists (rev is). split; [split; [|split]|].
    + apply increasing_rev in I2. exact I2.
    + apply Forall_rev. exact I1.
    + apply (alternating_same _ (map g js)); auto. apply F2_map_l. exact I3.
    + clear - I3. revert js I3. induction (rev is) as [|i l IH]; intros [|j js] K; inversion K; subst; constructor; auto.
Qed.
Lemma carries_left x f p : 0 <= x <= 1 -> no_more_changes (fun i => dcR x f i 0) p f p.
Proof. intros Hx. apply carries_of. intros js vs. apply left_pattern. exact Hx. Qed.
Lemma pattern_mirror f p is : sign_pattern f p is -> sign_pattern (fun i => f (p - i)%nat) p (rev (map (fun i => (p - i)%nat) is)).
Proof.
  intros (H1 & H2 & H3). split; [|split].
  - apply (increasing_rev (fun a b => b < a)%nat). eapply increasing_map; [|refine (increasing_impl lt (fun a b => (a < b <= p)%nat) _ is _ H2 H1)]; cbn beta; intros a b; lia.
  - apply Forall_rev, Forall_map. eapply Forall_impl; [|exact H2]. cbn beta. intros; lia.
  - rewrite map_rev, map_map. apply alternating_rev. erewrite map_ext_in; [exact H3|]. intros i Hi. cbn beta. rewrite Forall_forall in H2. specialize (H2 i Hi). f_equal. lia.
Qed.
Lemma F2_map_r {A B C} (g : C -> B) (P : A -> B -> Prop) l : forall l', Forall2 P l (map g l') -> Forall2 (fun a c => P a (g c)) l l'.
Proof. induction l; intros [|c l'] F; inversion F; subst; constructor; auto. Qed.
Lemma carries_mirror g n f m : no_more_changes (fun i => g (n - i)%nat) n (fun i => f (m - i)%nat) m -> no_more_changes g n f m.
Proof.
  intros H js Hj. pose proof Hj as (J1 & J2 & J3). apply pattern_mirror in Hj. destruct (H _ Hj) as (is & Hi & HS). pose proof Hi as (_ & B & _).
  apply pattern_mirror in Hi. exists (rev (map (fun i => (m - i)%nat) is)). split.
  - destruct Hi as (I1 & I2 & I3). split; [exact I1|]. split; [exact I2|]. erewrite map_ext_in; [exact I3|]. intros i Hin. cbn beta. rewrite Forall_forall in I2. specialize (I2 i Hin). f_equal. lia.
  - rewrite <- map_rev. apply F2_map_l. apply F2_rev in HS. rewrite rev_involutive in HS. apply F2_map_r in HS.
    clear - HS J2. revert js J2 HS. induction (rev is) as [|i l IH]; intros [|j js] J2 K; inversion K; subst; constructor; inversion J2; subst; auto.
    cbn beta in *. replace (n - (n - j))%nat with j in * by lia. auto.
Qed.
Lemma carries_ext g g' n f m : (forall j, (j <= n)%nat -> g j = g' j) -> no_more_changes g n f m -> no_more_changes g' n f m.
Proof.
  intros E H js (J1 & J2 & J3). assert (EM : map g js = map g' js) by (apply map_ext_in; intros j Hj; apply E; rewrite Forall_forall in J2; auto).
  destruct (H js) as (is & I1 & I2); [split; [auto|]; split; [auto|]; rewrite EM; auto|]. exists is. split; [auto|].
  clear - I2 J2 E. revert js J2 I2. induction is as [|i is IH]; intros [|j js] J2 K; inversion K; subst; constructor; inversion J2; subst; auto. rewrite <- E; auto.
Qed.
Lemma carries_right x f p : 0 <= x <= 1 -> no_more_changes (fun i => dcR x f (p - i) i) p f p.
Proof.
  intros Hx. apply carries_mirror. apply (carries_ext (fun i => dcR (1 - x) (fun i => f (p - i)%nat) i 0)); [|apply carries_left; lra].
  intros j Hj. cbn beta. rewrite dcR_mirror by lia. replace (p - (p - j))%nat with j by lia. f_equal. lia.
Qed.

Lemma carries_relev f p : no_more_changes (relev (V := R) p f) (p + 1) f p.
Proof.
  apply carries_of. intros js vs H1 H2 H3 H4.
  destruct (lift_pattern (relev (V := R) p f) f (p + 1) p 0) with (js := js) (vs := vs) as (is & A & B & C & _); auto; [|eauto].
  intros j v Hj Hs. destruct (Nat.eq_dec j (p + 1)) as [->|E].
  { rewrite relev_last in Hs. exists p. split; [lia|]. split; [lia|auto]. }
  rewrite relev_gen in Hs by (auto; apply sofnat_neq0; lia). rewrite !sofnat_INR in Hs. cbn [ssub s1 sdiv SOps_R vadd vscale VOps_scalar sadd smul] in Hs. change R1 with 1 in Hs.
  assert (HP : 0 < INR (p + 1)) by (apply lt_0_INR; lia).
  assert (HQ : 0 <= INR j / INR (p + 1) <= 1).
  { split; [apply Rmult_le_pos; [apply pos_INR|left; apply Rinv_0_lt_compat; auto]|].
    apply (Rmult_le_reg_r (INR (p + 1))); auto. unfold Rdiv. rewrite Rmult_assoc, Rinv_l by lra. rewrite Rmult_1_r, Rmult_1_l. apply le_INR. lia. }
  destruct j as [|j].
  { exists 0%nat. split; [lia|]. split; [lia|]. unfold same_sign in *. cbn [INR Nat.sub] in Hs. unfold Rdiv in Hs. rewrite Rmult_0_l in Hs. lra. }
  apply sign_mix in Hs; auto. destruct Hs as [Hs|Hs]; [exists (S j)|exists j]; (split; [lia|]; split; [lia|]); auto. replace (S j - 1)%nat with j in Hs by lia. exact Hs.
Qed.
Lemma phi_relev {V} {ov : VOps R V} {M : VMod R V} (phi : V -> R) p f i : affine_form phi -> (i <= p + 1)%nat -> phi (relev p f i) = relev (V := R) p (fun j => phi (f j)) i.
Proof.
  intros HP Hi. destruct (Nat.eq_dec i (p + 1)) as [->|E]; [rewrite !relev_last; reflexivity|].
  rewrite !relev_gen by (auto; apply sofnat_neq0; lia). apply HP.
Qed.

Lemma c109_variation_split : forall (V : Type) (ov : VOps R V) (M : VMod R V) (phi : V -> R) (s : spline V) (x : R) (k : nat),
  affine_form phi -> wf s -> (k < length (degrees s))%nat -> 0 < x < 1 ->
  exists a b, SplitAtPosition s x k = Ok [a; b] /\ forall idx, valid_index (degrees s) idx ->
    let p := nth k (degrees s) 0%nat in let line q i := phi (net q (upd_list idx k i)) in
    no_more_changes (line a) p (line s) p /\ no_more_changes (line b) p (line s) p.
Proof.
  intros V ov M phi s x k HP Hw Hk Hx. destruct (split_net s x k Hw Hk Hx) as (a & b & E & _ & _ & _ & _ & H). exists a, b. split; [exact E|].
  intros idx HV p line. assert (Hk' : (k < length idx)%nat) by (rewrite (idx_len _ _ HV); auto).
  assert (L : forall i, (i <= p)%nat -> line a i = dcR x (line s) i 0 /\ line b i = dcR x (line s) (p - i) i).
  { intros i Hi. destruct (H (upd_list idx k i)) as (A & B); [apply valid_upd; auto|]. unfold line. rewrite A, B, !(phi_dc phi HP), !nth_upd_same by auto.
    split; apply dcR_ext; intros j; rewrite upd_twice; reflexivity. }
  split.
  - apply (carries_ext (fun i => dcR x (line s) i 0)); [intros; symmetry; apply L; auto|]. apply carries_left. lra.
  - apply (carries_ext (fun i => dcR x (line s) (p - i) i)); [intros; symmetry; apply L; auto|]. apply carries_right. lra.
Qed.

Lemma valid_upd_both degs idx k q i : valid_index degs idx -> (i <= q)%nat -> (k < length degs)%nat -> valid_index (upd_list degs k q) (upd_list idx k i).
Proof. intros H Hi. revert k. induction H as [|p a degs idx Ha H IH]; intros [|k] Hk; cbn in *; try lia; constructor; auto. apply IH. lia. Qed.

Lemma c109_variation_elevate : forall (V : Type) (ov : VOps R V) (M : VMod R V) (phi : V -> R) (s : spline V) (k : nat),
  affine_form phi -> wf s -> (k < length (degrees s))%nat ->
  (Z.of_nat (n_coeffs (upd_list (degrees s) k (nth k (degrees s) 0 + 1)%nat)) < 2 ^ 31)%Z ->
  exists e, OrderElevate (T := R) s k = Ok e /\ forall idx, valid_index (degrees s) idx ->
    let p := nth k (degrees s) 0%nat in let line q i := phi (net q (upd_list idx k i)) in
    no_more_changes (line e) (p + 1) (line s) p.
Proof.
  intros V ov M phi s k HP Hw Hk Hz. destruct (elevate_net s k Hw Hk Hz) as (e & E & We & De & H). exists e. split; [exact E|].
  intros idx HV p line. assert (Hk' : (k < length idx)%nat) by (rewrite (idx_len _ _ HV); auto).
  apply (carries_ext (relev (V := R) p (line s))); [|apply carries_relev]. intros i Hi. unfold line at 2. rewrite (H (upd_list idx k i)).
  - rewrite nth_upd_same by auto. fold p. rewrite (phi_relev phi) by auto. unfold relev, line. cbn beta. rewrite !upd_twice. reflexivity.
  - rewrite De. apply valid_upd_both; auto.
Qed.

Lemma dcR_pos x f r : 0 <= x <= 1 -> forall j, (forall i, (j <= i <= j + r)%nat -> 0 < f i) -> 0 < dcR x f r j.
Proof.
  intros Hx. induction r; intros j H; [apply H; lia|]. rewrite dcR_S.
  assert (0 < dcR x f r j) by (apply IHr; intros; apply H; lia). assert (0 < dcR x f r (S j)) by (apply IHr; intros; apply H; lia). nra.
Qed.

Lemma c109_variation_rational : forall (V : Type) (ov : VOps R V) (M : VMod R V) (phi : V -> R) (p : nat) (pts : list V) (ws xs : list R) (vs : list V),
  affine_form phi -> length pts = (p + 1)%nat -> length ws = (p + 1)%nat -> Forall (fun w => 0 < w) ws ->
  exists r, R_deg_points [p] pts ws = Ok r /\
    (increasing Rlt xs -> Forall (fun x => 0 <= x <= 1) xs -> Forall2 (fun x v => R_Evaluate r [x] = Ok v) xs vs ->
     alternating (map phi vs) ->
     exists is : list nat, increasing lt is /\ Forall (fun i => (i < length pts)%nat) is /\ length is = length xs /\
       alternating (map (fun i => phi (nth i pts v0)) is) /\
       Forall2 (fun i v => same_sign (phi (nth i pts v0)) (phi v)) is vs).
Proof.
  intros V ov M phi p pts ws xs vs HP HLp HLw HW.
  destruct (c34_quotient R V _ _ _ _ [p] pts ws ltac:(discriminate)) as (r & E & _ & _ & Ev); [cbn; lia|cbn; lia|].
  exists r. split; [exact E|]. intros HI HF HE HA.
  assert (PW : forall i, (i <= p)%nat -> 0 < nth i ws 0) by (intros i Hi; rewrite Forall_forall in HW; apply HW, nth_In; lia).
  assert (EB : forall x (A : Type) (oa : VOps R A) (MA : VMod R A) (g : nat -> A), bezier [p] [x] g = dc x g p 0).
  { intros x A oa MA g. cbn [bezier]. change (dcas x (fun j => g (j + S p * 0)%nat) p 0 = dc x g p 0). rewrite dc_dcas. apply dc_ext. intros i _. f_equal. lia. }
  destruct (variation p xs (map phi vs) (fun i => nth i ws 0 * phi (nth i pts v0)) HI HF HA) as (is & I1 & I2 & I3).
  { pose proof (alternating_nonzero _ HA) as HN. clear HI HA. revert HF HN. induction HE as [|x v xs vs Hx HE IH]; intros HF HN; cbn [map] in *; constructor; inversion HN; inversion HF; subst; auto.
    destruct (Ev [x] eq_refl) as (Q & _). rewrite (EB x R _ _) in Q. rewrite (EB x V _ _) in Q.
    assert (PD : 0 < dcR x (fun i => nth i ws 0) p 0).
    { apply (dcR_pos x (fun i => nth i ws 0) p); [assumption|]. intros i Hi. apply PW. lia. }
    rewrite Q in Hx by (intros K; cbn in K; change R0 with 0 in K; lra). injection Hx as <-. 
    set (W := dcR x (fun i => nth i ws 0) p 0) in *.
    assert (K : phi (vscale (1 / W) (dc x (fun i => vscale (nth i ws 0) (nth i pts v0)) p 0)) = / W * dcR x (fun i => nth i ws 0 * phi (nth i pts v0)) p 0).
    { rewrite (phi_scale phi HP), (phi_dc phi HP). rewrite (dcR_ext x _ (fun i => 1 * (nth i ws 0 * phi (nth i pts v0)) + phi v0 * (1 + - nth i ws 0))).
      2:{ intros i. rewrite (phi_scale phi HP). ring. }
      rewrite dcR_lin. rewrite (dcR_ext x (fun i => 1 + - nth i ws 0) (fun i => 1 * 1 + -1 * nth i ws 0)) by (intros; ring).
      rewrite (dcR_lin x (fun _ => 1)), dcR_const. fold W. field. lra. }
    unfold same_sign. match goal with |- 0 < ?a * phi ?b => change b with (vscale (1 / W) (dc x (fun i => vscale (nth i ws 0) (nth i pts v0)) p 0)) end.
    match goal with H : phi _ <> 0 |- _ => change (phi (vscale (1 / W) (dc x (fun i => vscale (nth i ws 0) (nth i pts v0)) p 0)) <> 0) in H; rewrite K in H end.
    rewrite K. set (a := dcR x (fun i => nth i ws 0 * phi (nth i pts v0)) p 0) in *. assert (0 < / W) by (apply Rinv_0_lt_compat; auto).
    assert (a <> 0) by (intros Za; apply H1; rewrite Za; ring). replace (a * (/ W * a)) with (/ W * (a * a)) by ring. apply Rmult_lt_0_compat; auto. nra. }
  assert (I4 : Forall2 (fun i v => same_sign (phi (nth i pts v0)) v) is (map phi vs)).
  { clear - I3 I1 PW. revert I1. induction I3 as [|i v is vs' Hiv I3 IH]; intros I1; constructor; inversion I1; subst; auto.
    unfold same_sign in *. specialize (PW i ltac:(auto)). nra. }
  exists is. split; [exact I2|]. split.
  { eapply Forall_impl; [|exact I1]. cbn beta. intros i Hi. lia. }
  assert (L2 : length is = length vs) by (apply F2_length in I3; rewrite map_length in I3; auto).
  split; [apply F2_length in HE; lia|]. split.
  - apply (alternating_same _ (map phi vs)); auto. apply F2_map_l. exact I4.
  - apply (F2_map_r phi (fun i v => same_sign (phi (nth i pts v0)) v)). exact I4.
Qed.
