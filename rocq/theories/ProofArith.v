(** Sums, differences, scaling and shifting of splines. *)
From Coq Require Import Arith Lia List ZArith NArith Bool Ring Field.
From Verif Require Import Prelude Scalar Spec SpecSpline Sums ModelBasis ModelSpline
  ProofIndex ProofBasis ProofEval ProofElevate ProofUnique ClaimsA.
Import ListNotations.

(** ** Degrees *)
Definition le_degs := Forall2 le.
Lemma n_coeffs_mono l m : le_degs l m -> n_coeffs l <= n_coeffs m.
Proof.
  induction 1; [reflexivity|]. rewrite !n_coeffs_cons. apply Nat.mul_le_mono; lia.
Qed.
Lemma le_degs_refl l : le_degs l l.
Proof. induction l; constructor; auto. Qed.
Lemma le_degs_nth l m : length l = length m ->
  (forall k, k < length l -> nth k l 0 <= nth k m 0) -> le_degs l m.
Proof.
  revert m; induction l; intros [|b m] HL H; try discriminate; constructor.
  - apply (H 0). simpl; lia.
  - apply IHl; [simpl in HL; lia|]. intros k Hk. apply (H (S k)). simpl; lia.
Qed.
Lemma le_degs_length l m : le_degs l m -> length l = length m.
Proof. induction 1; simpl; auto. Qed.
Lemma le_degs_nth' l m k : le_degs l m -> nth k l 0 <= nth k m 0.
Proof. intros H. revert k; induction H; intros [|k]; simpl; auto. Qed.

Definition max_degs (l m : list nat) := map2 Nat.max l m.
Lemma length_max_degs l m : length l = length m -> length (max_degs l m) = length l.
Proof. apply length_map2. Qed.
Lemma nth_max_degs l m k : length l = length m ->
  nth k (max_degs l m) 0 = Nat.max (nth k l 0) (nth k m 0).
Proof.
  unfold max_degs. revert m k; induction l; intros [|b m] [|k] H; try discriminate; auto.
  simpl in *. apply IHl. lia.
Qed.
Lemma max_degs_comm l m : max_degs l m = max_degs m l.
Proof.
  unfold max_degs. revert m; induction l; intros [|b m]; simpl; auto. f_equal; auto. lia.
Qed.

Section Arith.
Context {T V : Type} {o : SOps T} {ov : VOps T V} {F : SField T} {M : VMod T V}.
Add Field Tfield : (@sf_th T o F).
Add Ring Ering : (@ext_ring T V o ov F M).
Ltac vring := to_ext; ring.

(** Same geometry. *)
Definition same_values (s s' : spline V) : Prop :=
  forall xs : list T, length xs = length (degrees s) -> value_at s' xs = value_at s xs.

Lemma Evaluate_value (s : spline V) (xs : list T) :
  wf s -> length xs = length (degrees s) -> Evaluate s xs = Ok (value_at s xs).
Proof. apply Evaluate_ok. Qed.

Lemma OrderElevate_step (s : spline V) k :
  wf s -> k < length (degrees s) ->
  (Z.of_nat (n_coeffs (upd_list (degrees s) k (S (nth k (degrees s) 0%nat)))) < 2 ^ 31)%Z ->
  exists s', OrderElevate s k = Ok s' /\ wf s' /\
    degrees s' = upd_list (degrees s) k (S (nth k (degrees s) 0)) /\ same_values s s'.
Proof.
  intros Hw Hk Hs.
  destruct (c13_order_elevate T V o ov F M s k Hw Hk) as (s' & E & Hw' & Hd & HV).
  { rewrite (upd_at_upd 0) by auto. exact Hs. }
  exists s'. split; auto. split; auto. rewrite (upd_at_upd 0) in Hd by auto. split; auto.
  intros xs HX. destruct (HV xs HX) as (E1 & _).
  rewrite !Evaluate_value in E1; auto; [|rewrite Hd, length_upd; auto]. congruence.
Qed.

Lemma same_values_trans s s' s'' :
  length (degrees s') = length (degrees s) -> same_values s s' -> same_values s' s'' -> same_values s s''.
Proof. intros HL H H' xs HX. rewrite H' by lia. apply H. auto. Qed.

(** Elevating one direction up to a target degree. *)
Lemma elevate_to_ok fuel target k (s : spline V) :
  wf s -> k < length (degrees s) ->
  (Z.of_nat (n_coeffs (upd_list (degrees s) k (Nat.max (nth k (degrees s) 0%nat) target))) < 2 ^ 31)%Z ->
  target < fuel ->
  exists s', elevate_to fuel target k s = Ok s' /\ wf s' /\
    degrees s' = upd_list (degrees s) k (Nat.max (nth k (degrees s) 0) target) /\ same_values s s'.
Proof.
  intros Hw Hk Hs Hf. unfold elevate_to.
  destruct (while_inv (fun y : spline V => wf y /\ same_values s y /\
      exists q, degrees y = upd_list (degrees s) k q /\ nth k (degrees s) 0 <= q /\
                q <= Nat.max (nth k (degrees s) 0) target)
    (fun y => target - nth k (degrees y) 0)
    (fun y => nth k (degrees y) 0 <? target) (fun y => OrderElevate y k) fuel s)
    as (y & E & (Hwy & HV & q & Hd & Hq1 & Hq2) & Hc).
  - lia.
  - split; auto. split; [intros xs HX; auto|]. exists (nth k (degrees s) 0). split; [|lia].
    apply (list_ext 0); [now rewrite length_upd|]. intros i Hi.
    rewrite nth_upd by auto. destruct (Nat.eqb_spec i k) as [->|]; auto.
  - intros y (Hwy & HV & q & Hd & Hq1 & Hq2) Hc. apply Nat.ltb_lt in Hc.
    assert (Eq : nth k (degrees y) 0 = q) by (rewrite Hd; apply nth_upd_same; auto).
    assert (HLy : length (degrees y) = length (degrees s)) by (rewrite Hd; apply length_upd).
    assert (Eu : upd_list (degrees y) k (S q) = upd_list (degrees s) k (S q)).
    { rewrite Hd. apply (list_ext 0); [now rewrite !length_upd|]. intros i Hi.
      rewrite !nth_upd by (rewrite ?length_upd; auto). destruct (i =? k); auto. }
    rewrite Eq in Hc.
    destruct (OrderElevate_step y k) as (y' & E & Hwy' & Hd' & HV'); auto; [lia| |].
    + rewrite Eq, Eu. eapply Z.le_lt_trans; [|exact Hs]. apply inj_le. apply n_coeffs_mono.
      apply le_degs_nth; [now rewrite !length_upd|]. intros i Hi.
      rewrite !nth_upd by auto. destruct (i =? k); lia.
    + exists y'. split; auto. rewrite Eq, Eu in Hd'. split.
      * split; auto. split; [eapply same_values_trans; eauto|].
        exists (S q). split; auto. lia.
      * rewrite Hd', Hd, !nth_upd_same by auto. lia.
  - exists y. split; [exact E|]. split; auto. split; auto. rewrite Hd. f_equal.
    apply Nat.ltb_ge in Hc. rewrite Hd, nth_upd_same in Hc by auto. lia.
Qed.

Lemma elevate_to_noop fuel target k (s : spline V) :
  0 < fuel -> target <= nth k (degrees s) 0 -> elevate_to fuel target k s = Ok s.
Proof.
  intros Hf H. unfold elevate_to. destruct fuel; [lia|]. simpl.
  now rewrite (proj2 (Nat.ltb_ge _ _)).
Qed.

Definition list_max (l : list nat) := fold_right Nat.max 0 l.
Lemma list_max_nth l k : nth k l 0 <= list_max l.
Proof. revert k; induction l; intros [|k]; simpl; try lia. specialize (IHl k). lia. Qed.

Lemma elevate_all_ok fuel targets (s : spline V) :
  wf s -> length targets = length (degrees s) ->
  (Z.of_nat (n_coeffs (max_degs (degrees s) targets)) < 2 ^ 31)%Z ->
  list_max targets < fuel ->
  exists s', elevate_all fuel targets s = Ok s' /\ wf s' /\
    degrees s' = max_degs (degrees s) targets /\ same_values s s'.
Proof.
  intros Hw HL Hs Hf. unfold elevate_all.
  edestruct (for_up_inv (fun k (y : spline V) => wf y /\ same_values s y /\
    length (degrees y) = length (degrees s) /\
    forall j, nth j (degrees y) 0 = if j <? k then Nat.max (nth j (degrees s) 0) (nth j targets 0)
                                    else nth j (degrees s) 0)) as (y & E & Hwy & HV & HLy & HN).
  3:{ exists y. split; [exact E|]. split; auto. split; auto.
      apply (list_ext 0); [rewrite length_max_degs; auto|]. intros i Hi.
      rewrite HN, nth_max_degs by auto. rewrite (proj2 (Nat.ltb_lt _ _)); auto. lia. }
  - split; auto. split; [intros xs HX; auto|]. split; auto.
  - intros k y Hk (Hwy & HV & HLy & HN). rewrite (get_ok 0) by lia. cbn [bind].
    assert (Hyk : nth k (degrees y) 0 = nth k (degrees s) 0).
    { rewrite HN, (proj2 (Nat.ltb_ge _ _)); auto. }
    destruct (elevate_to_ok fuel (nth k targets 0) k y) as (y' & E & Hwy' & Hd' & HV'); auto.
    + lia.
    + eapply Z.le_lt_trans; [|exact Hs]. apply inj_le, n_coeffs_mono.
      apply le_degs_nth; [rewrite length_upd, length_max_degs; lia|]. intros i Hi.
      rewrite length_upd in Hi. rewrite nth_upd, nth_max_degs by lia. destruct (Nat.eqb_spec i k) as [->|].
      * rewrite Hyk. lia.
      * rewrite HN. destruct (i <? k); lia.
    + pose proof (list_max_nth targets k). lia.
    + exists y'. split; auto. split; auto. split; [eapply same_values_trans; eauto|].
      split; [rewrite Hd', length_upd; auto|].
      intros j. rewrite Hd', nth_upd by lia. destruct (Nat.eqb_spec j k) as [->|].
      * rewrite Hyk. rewrite (proj2 (Nat.ltb_lt k (S k))) by lia. reflexivity.
      * rewrite HN. destruct (Nat.ltb_spec j k), (Nat.ltb_spec j (S k)); auto; lia.
Qed.

Lemma elevate_all_noop fuel targets (s : spline V) :
  length targets = length (degrees s) -> 0 < fuel -> le_degs targets (degrees s) ->
  elevate_all fuel targets s = Ok s.
Proof.
  intros HL Hf Hle. unfold elevate_all.
  edestruct (for_up_inv (fun k (y : spline V) => y = s)) as (y & E & Hy).
  3:{ rewrite E. now subst. }
  - reflexivity.
  - intros k y Hk ->. rewrite (get_ok 0) by lia. cbn [bind]. exists s. split; auto.
    apply elevate_to_noop; auto. apply le_degs_nth'; auto.
Qed.

(** ** Fuel *)
Lemma for_up_mono {A} (b b' : nat -> A -> res A) lo n a r :
  (forall i x y, b i x = Ok y -> b' i x = Ok y) ->
  for_up lo n b a = Ok r -> for_up lo n b' a = Ok r.
Proof.
  intros H. revert lo a; induction n; intros lo a E; auto. simpl in *.
  apply bind_ok in E. destruct E as (x & E1 & E2). rewrite (H _ _ _ E1). cbn [bind]. auto.
Qed.
Lemma elevate_all_mono f f' targets (s s' : spline V) :
  f <= f' -> elevate_all f targets s = Ok s' -> elevate_all f' targets s = Ok s'.
Proof.
  intros Hf. unfold elevate_all. apply for_up_mono. intros i x y E.
  apply bind_ok in E. destruct E as (t & E1 & E2). rewrite E1. cbn [bind].
  eapply while_mono; eauto.
Qed.

(** ** Pointwise combination *)
Lemma combine_assign_ok op n (x rhs : spline V) :
  length (control_points x) = n -> length (control_points rhs) = n ->
  combine_assign op n x rhs = Ok (with_cps x (map2 op (control_points x) (control_points rhs))).
Proof.
  intros H1 H2. unfold combine_assign.
  edestruct (for_up_inv (fun k c => length c = n /\
    forall j, j < n -> nth j c v0 = if j <? k then op (nth j (control_points x) v0) (nth j (control_points rhs) v0)
                                    else nth j (control_points x) v0)) as (c & E & HL & HN).
  3:{ rewrite E. cbn [bind]. do 2 f_equal. apply (list_ext v0); [rewrite length_map2; lia|].
      intros i Hi. rewrite HN by lia. rewrite (proj2 (Nat.ltb_lt _ _)) by lia.
      rewrite (nth_map2 _ _ _ _ v0 v0) by lia. reflexivity. }
  - split; auto.
  - intros k c Hk (HL & HN). rewrite (get_ok v0) by lia. cbn [bind].
    rewrite (get_ok v0) by lia. cbn [bind]. rewrite set_ok by lia. eexists; split; [reflexivity|].
    rewrite length_upd. split; auto. intros j Hj. rewrite nth_upd by lia.
    destruct (Nat.eqb_spec j k) as [->|].
    + rewrite HN by lia. rewrite (proj2 (Nat.ltb_ge k k)), (proj2 (Nat.ltb_lt k (S k))) by lia. auto.
    + rewrite HN by lia. destruct (Nat.ltb_spec j k), (Nat.ltb_spec j (S k)); auto; lia.
Qed.

Lemma bezier_ext_len degs (xs : list T) (f g : nat -> V) :
  (forall i, i < n_coeffs degs -> f i = g i) -> bezier degs xs f = bezier degs xs g.
Proof. intros H. apply bezier_ext. auto. Qed.

Lemma value_add (a b : spline V) (xs : list T) :
  wf a -> wf b -> degrees a = degrees b ->
  value_at (with_cps a (map2 vadd (control_points a) (control_points b))) xs =
  vadd (value_at a xs) (value_at b xs).
Proof.
  intros Ha Hb Hd. unfold value_at. cbn [with_cps degrees control_points]. rewrite <- Hd.
  rewrite <- bezier_add. apply bezier_ext. intros i Hi.
  destruct Ha as (_ & _ & _ & HLa), Hb as (_ & _ & _ & HLb).
  rewrite (nth_map2 _ _ _ _ v0 v0); congruence || lia.
Qed.
Lemma value_sub (a b : spline V) (xs : list T) :
  wf a -> wf b -> degrees a = degrees b ->
  value_at (with_cps a (map2 vsub (control_points a) (control_points b))) xs =
  vsub (value_at a xs) (value_at b xs).
Proof.
  intros Ha Hb Hd. unfold value_at. cbn [with_cps degrees control_points]. rewrite <- Hd.
  rewrite <- bezier_sub. apply bezier_ext. intros i Hi.
  destruct Ha as (_ & _ & _ & HLa), Hb as (_ & _ & _ & HLb).
  rewrite (nth_map2 _ _ _ _ v0 v0); congruence || lia.
Qed.

Lemma max_degs_absorb l m : length l = length m -> max_degs m (max_degs l m) = max_degs l m.
Proof.
  intros H. apply (list_ext 0); [rewrite !length_max_degs; rewrite ?length_max_degs; auto|].
  intros i Hi. rewrite !nth_max_degs; rewrite ?length_max_degs; auto. lia.
Qed.
Lemma list_max_max l m : length l = length m -> list_max (max_degs l m) = Nat.max (list_max l) (list_max m).
Proof.
  revert m; induction l; intros [|b m] H; try discriminate; auto. simpl in *.
  unfold max_degs in IHl. rewrite IHl by lia. lia.
Qed.

(** The pair of operands after [+=]-style elevation. *)
Lemma elevate_both fuel (s rhs : spline V) :
  wf s -> wf rhs -> length (degrees rhs) = length (degrees s) ->
  (Z.of_nat (n_coeffs (max_degs (degrees s) (degrees rhs))) < 2 ^ 31)%Z ->
  list_max (max_degs (degrees s) (degrees rhs)) < fuel ->
  exists s' rhs',
    elevate_all fuel (degrees rhs) s = Ok s' /\ elevate_all fuel (degrees s') rhs = Ok rhs' /\
    wf s' /\ wf rhs' /\ degrees s' = max_degs (degrees s) (degrees rhs) /\ degrees rhs' = degrees s' /\
    same_values s s' /\ same_values rhs rhs'.
Proof.
  intros Hw Hwr HL Hs Hf. rewrite list_max_max in Hf by auto.
  destruct (elevate_all_ok fuel (degrees rhs) s) as (s' & E & Hw' & Hd & HV); auto; [lia|].
  destruct (elevate_all_ok fuel (degrees s') rhs) as (r' & E' & Hwr' & Hd' & HV'); auto.
  - rewrite Hd, length_max_degs; auto.
  - rewrite Hd, max_degs_absorb by auto. auto.
  - rewrite Hd, list_max_max by auto. lia.
  - rewrite Hd, max_degs_absorb, <- Hd in Hd' by auto. exists s', r'. auto 10.
Qed.

Lemma add_assign_ok fuel (s rhs : spline V) :
  wf s -> wf rhs -> length (degrees rhs) = length (degrees s) ->
  (Z.of_nat (n_coeffs (max_degs (degrees s) (degrees rhs))) < 2 ^ 31)%Z ->
  list_max (max_degs (degrees s) (degrees rhs)) < fuel ->
  exists r, spline_add_assign fuel s rhs = Ok r /\ wf r /\
    degrees r = max_degs (degrees s) (degrees rhs) /\
    forall xs : list T, length xs = length (degrees s) ->
      value_at r xs = vadd (value_at s xs) (value_at rhs xs).
Proof.
  intros Hw Hwr HL Hs Hf.
  destruct (elevate_both fuel s rhs) as (s' & r' & E & E' & Hw' & Hwr' & Hd & Hd' & HV & HV'); auto.
  unfold spline_add_assign. rewrite E. cbn [bind]. rewrite E'. cbn [bind].
  pose proof Hw' as (_ & Hn' & _ & HL'). pose proof Hwr' as (_ & _ & _ & HLr').
  rewrite combine_assign_ok by congruence. eexists; split; [reflexivity|].
  split; [apply with_cps_wf; auto; rewrite length_map2; congruence|]. split; [exact Hd|].
  intros xs HX. rewrite value_add by auto. rewrite HV by auto. rewrite HV' by lia. reflexivity.
Qed.

Lemma sub_assign_ok fuel (s rhs : spline V) :
  wf s -> wf rhs -> length (degrees rhs) = length (degrees s) ->
  (Z.of_nat (n_coeffs (max_degs (degrees s) (degrees rhs))) < 2 ^ 31)%Z ->
  list_max (max_degs (degrees s) (degrees rhs)) < fuel ->
  exists r, spline_sub_assign fuel s rhs = Ok r /\ wf r /\
    degrees r = max_degs (degrees s) (degrees rhs) /\
    forall xs : list T, length xs = length (degrees s) ->
      value_at r xs = vsub (value_at s xs) (value_at rhs xs).
Proof.
  intros Hw Hwr HL Hs Hf.
  destruct (elevate_both fuel s rhs) as (s' & r' & E & E' & Hw' & Hwr' & Hd & Hd' & HV & HV'); auto.
  unfold spline_sub_assign. rewrite E. cbn [bind]. rewrite E'. cbn [bind].
  pose proof Hw' as (_ & Hn' & _ & HL'). pose proof Hwr' as (_ & _ & _ & HLr').
  rewrite combine_assign_ok by congruence. eexists; split; [reflexivity|].
  split; [apply with_cps_wf; auto; rewrite length_map2; congruence|]. split; [exact Hd|].
  intros xs HX. rewrite value_sub by auto. rewrite HV by auto. rewrite HV' by lia. reflexivity.
Qed.

(** [operator+] *)
Lemma needs_copy_ok (s rhs : spline V) :
  length (degrees rhs) = length (degrees s) ->
  exists b, for_up 0 (length (degrees s)) (fun par_dim b =>
      do p <- get (degrees s) par_dim;
      do q <- get (degrees rhs) par_dim;
      Ok (b || (q <? p))) false = Ok b /\ (b = false -> le_degs (degrees s) (degrees rhs)) /\
    (le_degs (degrees s) (degrees rhs) -> b = false).
Proof.
  intros HL.
  edestruct (for_up_inv (fun k (b : bool) =>
    (b = false <-> forall j, j < k -> nth j (degrees s) 0 <= nth j (degrees rhs) 0))) as (b & E & H).
  3:{ exists b. split; [exact E|]. split; intros Hb.
      - apply le_degs_nth; auto. apply H. auto.
      - apply H. intros j Hj. apply le_degs_nth'. auto. }
  - split; auto. intros; lia.
  - intros k b Hk H. cbv beta. rewrite (get_ok 0) by lia. cbn [bind]. rewrite (get_ok 0) by lia. cbn [bind].
    eexists; split; [reflexivity|]. rewrite orb_false_iff, H, Nat.ltb_ge. split.
    + intros (H1 & H2) j Hj. destruct (Nat.eq_dec j k) as [->|]; auto. apply H1. lia.
    + intros H1. split; [intros j Hj; apply H1|apply H1]; lia.
Qed.

Lemma max_degs_le l m : le_degs l m -> max_degs l m = m.
Proof.
  intros H. apply (list_ext 0).
  - rewrite length_max_degs by (apply le_degs_length; auto). apply le_degs_length; auto.
  - intros i Hi. rewrite nth_max_degs by (apply le_degs_length; auto).
    pose proof (le_degs_nth' l m i H). lia.
Qed.
Lemma le_max_degs_r l m : length l = length m -> le_degs m (max_degs l m).
Proof.
  intros. apply le_degs_nth; [rewrite length_max_degs; lia|]. intros. rewrite nth_max_degs; lia.
Qed.

Lemma add_ok fuel (s rhs : spline V) :
  wf s -> wf rhs -> length (degrees rhs) = length (degrees s) ->
  (Z.of_nat (n_coeffs (max_degs (degrees s) (degrees rhs))) < 2 ^ 31)%Z ->
  list_max (max_degs (degrees s) (degrees rhs)) < fuel -> 2 <= fuel ->
  exists r, spline_add fuel s rhs = Ok r /\ spline_add_assign fuel s rhs = Ok r.
Proof.
  intros Hw Hwr HL Hs Hf Hf2.
  destruct (elevate_both fuel s rhs) as (s' & r' & E & E' & Hw' & Hwr' & Hd & Hd' & HV & HV'); auto.
  unfold spline_add_assign. rewrite E. cbn [bind]. rewrite E'. cbn [bind].
  pose proof Hw' as (Hne' & Hn' & Ho' & HL'). pose proof Hwr' as (_ & Hnr' & Hor' & HLr').
  assert (HLs' : length (degrees s') = length (degrees s)).
  { rewrite Hd. apply length_max_degs. auto. }
  rewrite combine_assign_ok by congruence.
  unfold spline_add. destruct fuel as [|[|fuel]]; try lia. cbn [spline_add_rec].
  assert (Hcopy : forall t : spline V, wf t -> Spline_deg_points (degrees t) (control_points t) = Ok t).
  { intros t Ht. rewrite Spline_deg_points_ok by apply Ht. now rewrite <- wf_eq_mk. }
  rewrite (Hcopy s Hw). cbn [bind].
  destruct (needs_copy_ok s rhs HL) as (b & -> & Hb1 & Hb2). cbn [bind]. rewrite E. cbn [bind].
  destruct b; cbn [negb].
  - rewrite (Hcopy rhs Hwr). cbn [bind].
    destruct (needs_copy_ok rhs s') as (b & -> & Hb1' & Hb2'); [lia|]. cbn [bind].
    rewrite E'. cbn [bind].
    rewrite Hb2' by (rewrite Hd; apply le_max_degs_r; auto). cbn [negb].
    rewrite combine_assign_ok by congruence. eexists; split; [reflexivity|].
    rewrite (wf_eq_mk s' Hw'), (wf_eq_mk r' Hwr'). rewrite !with_cps_mk, Hd'. cbn [mk control_points].
    do 2 f_equal.
    assert (HLL : length (control_points s') = length (control_points r')) by congruence.
    apply (list_ext v0); [rewrite !length_map2; congruence|]. intros i Hi.
    rewrite !length_map2 in Hi by auto.
    rewrite !(nth_map2 _ _ _ _ v0 v0) by (congruence || lia). apply vm_comm.
  - specialize (Hb1 eq_refl).
    assert (r' = rhs) as ->.
    { rewrite elevate_all_noop in E'; [congruence|lia|lia|]. rewrite Hd, max_degs_le by auto. apply le_degs_refl. }
    rewrite combine_assign_ok by congruence. eexists; split; reflexivity.
Qed.

(** [operator-] *)
Lemma while_true_not_ok {A} fuel (body : A -> res A) a r :
  while_ fuel (fun _ => true) body a <> Ok r.
Proof.
  revert a; induction fuel; intros a; simpl; [discriminate|].
  intros E. apply bind_ok in E. destruct E as (a' & _ & E). eapply IHfuel; eauto.
Qed.

Lemma sub_diverges (s rhs : spline V) k :
  wf s -> length (degrees rhs) = length (degrees s) -> k < length (degrees s) ->
  nth k (degrees s) 0 < nth k (degrees rhs) 0 ->
  forall fuel r, spline_sub fuel s rhs <> Ok r.
Proof.
  intros Hw HL Hk Hlt fuel r E. unfold spline_sub in E.
  apply bind_ok in E. destruct E as (r0 & _ & E).
  apply bind_ok in E. destruct E as (r1 & E & _).
  assert (H : forall n lo x, lo <= k < lo + n -> lo + n <= length (degrees s) ->
    for_up lo n (fun par_dim r => do q <- get (degrees rhs) par_dim; do p <- get (degrees s) par_dim;
      while_ fuel (fun _ => p <? q) (fun y => OrderElevate y par_dim) r) x <> Ok r1).
  { clear E. induction n; intros lo x Hlo HL' E; [lia|]. cbn [for_up] in E.
    apply bind_ok in E. destruct E as (x' & E1 & E2).
    destruct (Nat.eq_dec lo k) as [->|].
    - rewrite (get_ok 0) in E1 by lia. cbn [bind] in E1.
      rewrite (get_ok 0) in E1 by lia. cbn [bind] in E1.
      rewrite (proj2 (Nat.ltb_lt _ _)) in E1 by auto. apply while_true_not_ok in E1. auto.
    - eapply (IHn (S lo)); eauto; lia. }
  refine (H _ 0 _ _ _ E); lia.
Qed.

Lemma sub_ok fuel (s rhs : spline V) :
  wf s -> wf rhs -> le_degs (degrees rhs) (degrees s) ->
  (Z.of_nat (n_coeffs (degrees s)) < 2 ^ 31)%Z ->
  list_max (degrees s) < fuel ->
  exists r, spline_sub fuel s rhs = Ok r /\ wf r /\ degrees r = degrees s /\
    forall xs : list T, length xs = length (degrees s) ->
      value_at r xs = vsub (value_at s xs) (value_at rhs xs).
Proof.
  intros Hw Hwr Hle Hs Hf. pose proof (le_degs_length _ _ Hle) as HL.
  unfold spline_sub. rewrite Spline_deg_points_ok by apply Hw. cbn [bind]. rewrite <- wf_eq_mk by auto.
  edestruct (for_up_inv (fun k (y : spline V) => y = s)) as (y & E & ->).
  3:{ rewrite E. cbn [bind].
    assert (Hm : max_degs (degrees rhs) (degrees s) = degrees s) by (apply max_degs_le; auto).
    destruct (elevate_all_ok fuel (degrees s) rhs) as (r' & E' & Hwr' & Hd' & HV'); auto; [now rewrite Hm|].
    rewrite E'. cbn [bind]. rewrite Hm in Hd'.
    pose proof Hw as (_ & Hn' & _ & HL'). pose proof Hwr' as (_ & _ & _ & HLr').
    rewrite combine_assign_ok by congruence. eexists; split; [reflexivity|].
    split; [apply with_cps_wf; auto; rewrite length_map2; congruence|]. split; [reflexivity|].
    intros xs HX. rewrite value_sub by auto. rewrite HV' by lia. reflexivity. }
  - reflexivity.
  - intros k y Hk ->. rewrite (get_ok 0) by lia. cbn [bind]. rewrite (get_ok 0) by lia. cbn [bind].
    exists s. split; auto. rewrite (proj2 (Nat.ltb_ge _ _)) by (apply le_degs_nth'; auto).
    destruct fuel; [lia|]. reflexivity.
Qed.

(** ** Maps over the control points *)
Lemma map_points_ok (f : V -> V) (s : spline V) :
  wf s -> map_points f s = Ok (with_cps s (map f (control_points s))).
Proof.
  intros (Hd & Hn & Ho & Hc). unfold map_points. rewrite Hn, <- Hc.
  edestruct (for_up_inv (fun k c => length c = length (control_points s) /\
    forall j, j < length (control_points s) -> nth j c v0 = if j <? k then f (nth j (control_points s) v0)
                                    else nth j (control_points s) v0)) as (c & E & HL & HN).
  3:{ rewrite E. cbn [bind]. do 2 f_equal. apply (list_ext v0); [rewrite map_length; lia|].
      intros i Hi. rewrite HN by lia. rewrite (proj2 (Nat.ltb_lt _ _)) by lia.
      rewrite (nth_indep (map f (control_points s)) v0 (f v0)) by (rewrite map_length; lia). now rewrite map_nth. }
  - split; auto.
  - intros k c Hk (HL & HN). rewrite (get_ok v0) by lia. cbn [bind].
    rewrite set_ok by lia. eexists; split; [reflexivity|].
    rewrite length_upd. split; auto. intros j Hj. rewrite nth_upd by lia.
    destruct (Nat.eqb_spec j k) as [->|].
    + rewrite HN by lia. rewrite (proj2 (Nat.ltb_ge k k)), (proj2 (Nat.ltb_lt k (S k))) by lia. auto.
    + rewrite HN by lia. destruct (Nat.ltb_spec j k), (Nat.ltb_spec j (S k)); auto; lia.
Qed.

Lemma spline_neg_ok (s : spline V) :
  wf s -> spline_neg s = Ok (with_cps s (map vopp (control_points s))).
Proof.
  intros (Hd & Hn & Ho & Hc). unfold spline_neg. rewrite Hn, <- Hc.
  edestruct (for_up_inv (fun k c => length c = length (control_points s) /\
    forall j, j < k -> nth j c v0 = vopp (nth j (control_points s) v0))) as (c & E & HL & HN).
  3:{ rewrite E. cbn [bind]. do 2 f_equal. apply (list_ext v0); [rewrite map_length; lia|].
      intros i Hi. rewrite HN by lia.
      rewrite (nth_indep (map vopp (control_points s)) v0 (vopp v0)) by (rewrite map_length; lia). now rewrite map_nth. }
  - split; auto. intros; lia.
  - intros k c Hk (HL & HN). rewrite (get_ok v0) by lia. cbn [bind].
    rewrite set_ok by lia. eexists; split; [reflexivity|].
    rewrite length_upd. split; auto. intros j Hj. rewrite nth_upd by lia.
    destruct (Nat.eqb_spec j k) as [->|]; auto. apply HN. lia.
Qed.

Lemma wf_map (f : V -> V) s : wf s -> wf (with_cps s (map f (control_points s))).
Proof. intros H. apply with_cps_wf; auto. rewrite map_length. apply H. Qed.

Lemma nth_map_pts (f : V -> V) (s : spline V) i :
  wf s -> i < n_coeffs (degrees s) ->
  nth i (map f (control_points s)) v0 = f (nth i (control_points s) v0).
Proof.
  intros (_ & _ & _ & H) Hi. rewrite (nth_indep _ v0 (f v0)) by (rewrite map_length; lia). apply map_nth.
Qed.

Lemma value_scale c (s : spline V) (xs : list T) :
  wf s -> value_at (with_cps s (map (fun x => vscale c x) (control_points s))) xs = vscale c (value_at s xs).
Proof.
  intros Hw. unfold value_at. cbn [with_cps degrees control_points]. rewrite <- bezier_scale.
  apply bezier_ext. intros i Hi. rewrite nth_map_pts; auto.
Qed.
Lemma value_shift p (s : spline V) (xs : list T) :
  wf s -> length xs = length (degrees s) ->
  value_at (with_cps s (map (fun x => vadd x p) (control_points s))) xs = vadd (value_at s xs) p.
Proof.
  intros Hw HX. unfold value_at. cbn [with_cps degrees control_points].
  transitivity (vadd (bezier (degrees s) xs (fun i => nth i (control_points s) v0))
                     (bezier (degrees s) xs (fun _ => p))); [|now rewrite bezier_const].
  rewrite <- bezier_add.
  apply bezier_ext. intros i Hi. rewrite nth_map_pts; auto.
Qed.
Lemma value_unshift p (s : spline V) (xs : list T) :
  wf s -> length xs = length (degrees s) ->
  value_at (with_cps s (map (fun x => vsub x p) (control_points s))) xs = vsub (value_at s xs) p.
Proof.
  intros Hw HX. unfold value_at. cbn [with_cps degrees control_points].
  transitivity (vsub (bezier (degrees s) xs (fun i => nth i (control_points s) v0))
                     (bezier (degrees s) xs (fun _ => p))); [|now rewrite bezier_const].
  rewrite <- bezier_sub.
  apply bezier_ext. intros i Hi. rewrite nth_map_pts; auto.
Qed.
Lemma value_neg (s : spline V) (xs : list T) :
  wf s -> value_at (with_cps s (map vopp (control_points s))) xs = vopp (value_at s xs).
Proof.
  intros Hw. unfold value_at. cbn [with_cps degrees control_points]. rewrite <- bezier_opp.
  apply bezier_ext. intros i Hi. rewrite nth_map_pts; auto.
Qed.

End Arith.
