(** The operations on splines preserve relations between scalar types that the arithmetic
    operations preserve.  Divisions are required only by positive or zero integer constants. *)
From Coq Require Import Arith Lia List ZArith NArith Bool.
From Verif Require Import Prelude Scalar ModelBasis ModelSpline ModelRational ProofParam.
Import ListNotations.
Local Open Scope nat_scope.

Lemma rres_for_down {A B} (P : A -> B -> Prop) f g n a b :
  P a b -> (forall i x y, P x y -> rres P (f i x) (g i y)) -> rres P (for_down n f a) (for_down n g b).
Proof.
  intros H S. revert a b H; induction n; intros a b H; [exact H|]. simpl.
  eapply rres_bind; [apply S; exact H|]. intros; apply IHn; auto.
Qed.
Lemma rres_while {A B} (P : A -> B -> Prop) fuel c c' f g a b :
  P a b -> (forall x y, P x y -> c x = c' y) -> (forall x y, P x y -> rres P (f x) (g y)) ->
  rres P (while_ fuel c f a) (while_ fuel c' g b).
Proof.
  intros H C S. revert a b H; induction fuel; intros a b H; simpl; auto.
  rewrite (C _ _ H). destruct (c' b); [|exact H].
  eapply rres_bind; [apply S; exact H|]. intros; apply IHfuel; auto.
Qed.
Lemma F2_firstn {A B} (P : A -> B -> Prop) l m n : Forall2 P l m -> Forall2 P (firstn n l) (firstn n m).
Proof. intros H. revert n; induction H; intros [|n]; simpl; auto. Qed.
Lemma F2_resize {A B} (P : A -> B -> Prop) x y l m n : P x y -> Forall2 P l m -> Forall2 P (resize x l n) (resize y m n).
Proof.
  intros H K. unfold resize. rewrite (F2_length _ _ _ K). apply Forall2_app; [now apply F2_firstn|now apply F2_repeat].
Qed.
Lemma rres_ok {A B} (P : A -> B -> Prop) m m' b : rres P m m' -> m' = Ok b -> exists a, m = Ok a /\ P a b.
Proof. intros H ->. destruct m; simpl in H; try contradiction. eauto. Qed.
Lemma rres_ok_l {A B} (P : A -> B -> Prop) m m' a : rres P m m' -> m = Ok a -> exists b, m' = Ok b /\ P a b.
Proof. intros H ->. destruct m'; simpl in H; try contradiction. eauto. Qed.
Lemma rres_app1 {A B} (P : A -> B -> Prop) l m x y : Forall2 P l m -> P x y -> Forall2 P (l ++ [x]) (m ++ [y]).
Proof. intros. apply Forall2_app; auto. Qed.

Ltac rsame := let q := fresh "q" in let q' := fresh "q'" in eapply rres_bind; [apply rres_same|intros q q' <-].

Section Rel.
Context {T1 T2 V1 V2 : Type} {o1 : SOps T1} {o2 : SOps T2} {ov1 : VOps T1 V1} {ov2 : VOps T2 V2}.
Context (RT : T1 -> T2 -> Prop) (RV : V1 -> V2 -> Prop).

(** The additional operations. *)
Record rel_ring' : Prop := {
  rr'_ring : rel_ring RT;
  rr'_opp : forall a a', RT a a' -> RT (sopp a) (sopp a');
  rr'_divN : forall a a' k, RT a a' -> rres RT (divS a (sofN k)) (divS a' (sofN k))
}.
Record rel_mod' : Prop := {
  rm'_mod : rel_mod RT RV;
  rm'_sub : forall a b a' b', RV a a' -> RV b b' -> RV (vsub a b) (vsub a' b');
  rm'_opp : forall a a', RV a a' -> RV (vopp a) (vopp a')
}.

Context (HR' : rel_ring') (HM' : rel_mod').
Let HR := rr'_ring HR'.
Let HM := rm'_mod HM'.

Lemma srel_with s s' c c' : srel RV s s' -> Forall2 RV c c' -> srel RV (with_cps s c) (with_cps s' c').
Proof. intros [A B C D] H. split; auto. Qed.

Lemma Spline_deg_rel deg : rres (srel RV) (Spline_deg deg) (Spline_deg deg).
Proof.
  unfold Spline_deg. rsame. rsame. simpl. split; auto. simpl. apply F2_repeat. apply (rm_0 _ _ HM).
Qed.
Lemma Spline_deg_points_rel deg c c' : Forall2 RV c c' -> rres (srel RV) (Spline_deg_points deg c) (Spline_deg_points deg c').
Proof.
  intros H. unfold Spline_deg_points. rsame. rsame. rewrite (F2_length _ _ _ H). rsame. simpl. split; auto.
Qed.
Lemma UpdateDegrees_rel s s' deg : srel RV s s' -> rres (srel RV) (UpdateDegrees s deg) (UpdateDegrees s' deg).
Proof.
  intros H. unfold UpdateDegrees. rsame. rsame. simpl. split; auto. simpl. apply F2_resize; [apply (rm_0 _ _ HM)|apply H].
Qed.
Lemma LocalToGlobalIndex_rel s s' i : srel RV s s' -> LocalToGlobalIndex s i = LocalToGlobalIndex s' i.
Proof. intros [A B C D]. unfold LocalToGlobalIndex. now rewrite A, C. Qed.
Lemma GlobalToLocalIndex_rel s s' i : srel RV s s' -> GlobalToLocalIndex s i = GlobalToLocalIndex s' i.
Proof. intros [A B C D]. unfold GlobalToLocalIndex. now rewrite A, C. Qed.
Lemma ControlPoint_rel s s' i : srel RV s s' -> rres RV (ControlPoint s i) (ControlPoint s' i).
Proof.
  intros H. unfold ControlPoint. rewrite (GlobalToLocalIndex_rel _ _ _ H). rsame. apply rres_get, H.
Qed.
Lemma SetControlPoint_rel s s' i v v' : srel RV s s' -> RV v v' -> rres (srel RV) (SetControlPoint s i v) (SetControlPoint s' i v').
Proof.
  intros H K. unfold SetControlPoint. rewrite (GlobalToLocalIndex_rel _ _ _ H). rsame.
  eapply rres_bind; [apply rres_set; [apply H|exact K]|]. intros. simpl. apply srel_with; auto.
Qed.

Let PZ := fun (a : list V1 * Z) (b : list V2 * Z) => Forall2 RV (fst a) (fst b) /\ snd a = snd b.

Lemma OrderElevate_rel s s' dim : srel RV s s' -> rres (srel RV) (OrderElevate s dim) (OrderElevate s' dim).
Proof.
  intros [Hd Hn Ho Hc]. unfold OrderElevate. rewrite Hd, Hn, Ho.
  rsame. rsame. cbv zeta. rsame. rsame.
  eapply rres_bind; [apply (rr'_divN HR'), (rr_1 _ HR); exact HR|]. intros f f' Hf.
  eapply (rres_bind PZ).
  - apply rres_for_down; [split; simpl; auto; apply F2_resize; auto; apply (rm_0 _ _ HM)|].
    intros g st st' Hst. cbv zeta.
    eapply (rres_bind PZ).
    { apply rres_for_down; auto. intros i (c & z) (c' & z') (H1 & H2). simpl in H1, H2. subst z'.
      eapply rres_bind; [apply rres_get; exact H1|]. intros v v' Hv.
      eapply rres_bind; [apply rres_set; [exact H1|exact Hv]|]. intros. split; auto. }
    intros st1 st1' H1. eapply (rres_bind PZ).
    { apply rres_for_down; auto. intros k st2 st2' H2. cbv zeta. apply rres_for_down; auto.
      intros i (c & z) (c' & z') (K1 & K2). simpl in K1, K2. subst z'. cbv zeta.
      eapply rres_bind; [apply rres_get; exact K1|]. intros v v' Hv.
      eapply rres_bind; [apply rres_get; exact K1|]. intros w w' Hw.
      assert (Hff : RT (smul (sofnat (k + 1)) f) (smul (sofnat (k + 1)) f')) by (apply (rr_mul _ HR); auto; apply (rr_ofN _ HR); auto).
      eapply rres_bind; [apply rres_set; [exact K1|]|].
      - apply (rm_add _ _ HM); auto; apply (rm_scale _ _ HM); eauto. apply (rr_sub _ HR); auto. apply (rr_1 _ HR); auto.
      - intros. split; auto. }
    intros st2 st2' H2. apply rres_for_down; auto. intros i (c & z) (c' & z') (K1 & K2). simpl in K1, K2. subst z'.
    eapply rres_bind; [apply rres_get; exact K1|]. intros v v' Hv.
    eapply rres_bind; [apply rres_set; [exact K1|exact Hv]|]. intros. split; auto.
  - intros (c & z) (c' & z') (H1 & H2). simpl in H1, H2. rsame. simpl. split; auto.
Qed.

Let PN := fun (a : list nat * list V1) (b : list nat * list V2) => fst a = fst b /\ Forall2 RV (snd a) (snd b).
Let PM := fun (a : list V1 * list nat) (b : list V2 * list nat) => Forall2 RV (fst a) (fst b) /\ snd a = snd b.

Lemma sign_rel (b : bool) : RT (if b then s1 else sopp s1) (if b then s1 else sopp s1).
Proof. destruct b; [apply (rr_1 _ HR); auto|apply (rr'_opp HR'); auto; apply (rr_1 _ HR); auto]. Qed.

Lemma DerivativeWRT_rel MAXB s s' orders : srel RV s s' ->
  rres (srel RV) (DerivativeWRT MAXB s orders) (DerivativeWRT MAXB s' orders).
Proof.
  intros Hs. pose proof Hs as [Hd Hn Ho Hc]. unfold DerivativeWRT. rewrite Hd.
  eapply (rres_bind PN).
  - apply rres_for_up; [split; auto|]. intros i (nd & c) (nd' & c') (E & H). simpl in E, H. subst nd'.
    rsame. destruct (_ =? 0); [split; auto|]. rsame. rsame. rsame. rsame.
    eapply (rres_bind RT).
    { apply rres_for_up; [apply (rr_ofN _ HR); auto|]. intros. simpl. apply (rr_mul _ HR); auto. apply (rr_ofN _ HR); auto. }
    intros f f' Hf. rsame. eapply (rres_bind (Forall2 RV)).
    + apply rres_for_up; auto. intros j u u' Hu. rsame. rewrite (GlobalToLocalIndex_rel _ _ _ Hs). rsame.
      eapply (rres_bind PM).
      * apply rres_for_up; [split; auto|]. intros l (a & mi) (a' & mi') (H1 & H2). simpl in H1, H2. subst mi'.
        rsame. rsame. rsame. cbv zeta. rewrite (GlobalToLocalIndex_rel _ _ _ Hs). rsame.
        eapply rres_bind; [apply rres_get; exact H1|]. intros v v' Hv.
        eapply rres_bind; [apply rres_get; exact H1|]. intros w w' Hw.
        eapply rres_bind; [apply rres_set; [exact H1|]|].
        { apply (rm_add _ _ HM); eauto. apply (rm_scale _ _ HM); eauto. apply (rr_mul _ HR); [apply sign_rel|apply (rr_ofN _ HR); auto]. }
        intros. split; auto.
      * intros (a & mi) (a' & mi') (H1 & H2). simpl in H1, H2.
        eapply rres_bind; [apply rres_get; exact H1|]. intros v v' Hv. apply rres_set; auto.
        apply (rm_scale _ _ HM); auto. apply (rr_mul _ HR); auto. apply sign_rel.
    + intros u u' Hu. simpl. split; auto.
  - intros (nd & c) (nd' & c') (E & H). simpl in E, H. subst nd'.
    eapply rres_bind; [apply Spline_deg_rel|]. intros e e' He. rewrite (sr_n _ _ _ He).
    eapply (rres_bind (Forall2 RV)).
    + apply rres_for_up; [apply He|]. intros i u u' Hu. rewrite (LocalToGlobalIndex_rel _ _ _ He). rsame.
      rewrite (GlobalToLocalIndex_rel _ _ _ Hs). rsame.
      eapply rres_bind; [apply rres_get; exact H|]. intros v v' Hv. apply rres_set; auto.
    + intros u u' Hu. simpl. apply srel_with; auto.
Qed.

Lemma BernsteinEvaluateDerivative_rel MAXB p x x' k : RT x x' ->
  rres (Forall2 RT) (BernsteinEvaluateDerivative MAXB p x k) (BernsteinEvaluateDerivative MAXB p x' k).
Proof.
  intros Hx. unfold BernsteinEvaluateDerivative. rsame.
  destruct (p <? k); [simpl; apply F2_repeat, (rr_0 _ HR); auto|]. destruct (k =? 0); [apply BernsteinEvaluate_rel; auto|].
  eapply rres_bind; [apply BernsteinEvaluate_rel; eauto|]. intros b b' Hb.
  eapply (rres_bind RT).
  { apply rres_for_up; [apply (rr_1 _ HR); auto|]. intros. simpl. apply (rr_mul _ HR); auto. apply (rr_ofN _ HR); auto. }
  intros f f' Hf. apply rres_for_up; [apply F2_repeat, (rr_0 _ HR); auto|]. intros i u u' Hu. cbv zeta.
  eapply (rres_bind (Forall2 RT)).
  - apply rres_for_up; auto. intros j w w' Hw. eapply rres_bind; [apply rres_same|intros bk ? <-].
    eapply rres_bind; [apply rres_get; exact Hb|]. intros v v' Hv.
    eapply rres_bind; [apply rres_get; exact Hw|]. intros e e' He. apply rres_set; auto.
    assert (HH : RT (smul (sofN bk) v) (smul (sofN bk) v')) by (apply (rr_mul _ HR); auto; apply (rr_ofN _ HR); auto).
    apply (rr_add _ HR); auto. destruct (Nat.odd _); auto. apply (rr'_opp HR'); auto.
  - intros w w' Hw. eapply rres_bind; [apply rres_get; exact Hw|]. intros e e' He. apply rres_set; auto.
    apply (rr_mul _ HR); auto.
Qed.

Lemma BasisFunctionsDerivatives_rel MAXB s s' xs xs' ks : srel RV s s' -> Forall2 RT xs xs' ->
  rres (Forall2 RT) (BasisFunctionsDerivatives MAXB s xs ks) (BasisFunctionsDerivatives MAXB s' xs' ks).
Proof.
  intros [Hd _ _ _] Hx. unfold BasisFunctionsDerivatives. eapply (rres_bind (Forall2 (Forall2 RT))).
  - unfold BasisFunctionsDerivativeContributions. rewrite Hd. apply rres_for_up; [apply F2_repeat; auto|].
    intros i l l' Hl. rsame. eapply rres_bind; [apply rres_get; exact Hx|]. intros x x' Hxx. rsame.
    eapply rres_bind; [apply BernsteinEvaluateDerivative_rel; exact Hxx|]. intros b b' Hb. apply rres_set; auto.
  - intros f f' Hf. unfold RecursiveCombine. rewrite (F2_length _ _ _ Hf). apply RecursiveCombine__rel; auto.
    apply (rr_1 _ HR); auto.
Qed.

Lemma combine_points_rel f f' c c' : Forall2 RT f f' -> Forall2 RV c c' -> rres RV (combine_points f c) (combine_points f' c').
Proof.
  intros Hf Hc. unfold combine_points. rewrite (F2_length _ _ _ Hf). apply rres_for_up; [apply (rm_0 _ _ HM)|].
  intros i a a' Ha. eapply rres_bind; [apply rres_get; exact Hf|]. intros x x' Hxx.
  eapply rres_bind; [apply rres_get; exact Hc|]. intros v v' Hv. simpl. apply (rm_add _ _ HM); auto. apply (rm_scale _ _ HM); auto.
Qed.

Lemma EvaluateDerivative_rel MAXB s s' xs xs' ks : srel RV s s' -> Forall2 RT xs xs' ->
  rres RV (EvaluateDerivative MAXB s xs ks) (EvaluateDerivative MAXB s' xs' ks).
Proof.
  intros Hs Hx. unfold EvaluateDerivative. eapply rres_bind; [apply BasisFunctionsDerivatives_rel; eauto|].
  intros f f' Hf. apply combine_points_rel; auto. apply Hs.
Qed.

Lemma map_points_rel f f' s s' : srel RV s s' -> (forall x x', RV x x' -> RV (f x) (f' x')) ->
  rres (srel RV) (map_points f s) (map_points f' s').
Proof.
  intros Hs H. unfold map_points. rewrite (sr_n _ _ _ Hs). eapply (rres_bind (Forall2 RV)).
  - apply rres_for_up; [apply Hs|]. intros i c c' Hc. eapply rres_bind; [apply rres_get; exact Hc|].
    intros; apply rres_set; auto.
  - intros. simpl. apply srel_with; auto.
Qed.
Lemma scale_assign_rel s s' c c' : srel RV s s' -> RT c c' -> rres (srel RV) (scale_assign s c) (scale_assign s' c').
Proof. intros. apply map_points_rel; auto. intros; apply (rm_scale _ _ HM); auto. Qed.
Lemma shift_assign_rel s s' p p' : srel RV s s' -> RV p p' -> rres (srel RV) (shift_assign s p) (shift_assign s' p').
Proof. intros. apply map_points_rel; auto. intros; apply (rm_add _ _ HM); auto. Qed.
Lemma unshift_assign_rel s s' p p' : srel RV s s' -> RV p p' -> rres (srel RV) (unshift_assign s p) (unshift_assign s' p').
Proof. intros. apply map_points_rel; auto. intros; apply (rm'_sub HM'); auto. Qed.
Lemma spline_neg_rel s s' : srel RV s s' -> rres (srel RV) (spline_neg s) (spline_neg s').
Proof.
  intros Hs. unfold spline_neg. rewrite (sr_n _ _ _ Hs). eapply (rres_bind (Forall2 RV)).
  - apply rres_for_up; [apply Hs|]. intros i c c' Hc. eapply rres_bind; [apply rres_get; apply Hs|].
    intros; apply rres_set; auto. apply (rm'_opp HM'); auto.
  - intros. simpl. apply srel_with; auto.
Qed.
Lemma point_minus_spline_rel s s' p p' : srel RV s s' -> RV p p' -> rres (srel RV) (point_minus_spline p s) (point_minus_spline p' s').
Proof.
  intros Hs Hp. unfold point_minus_spline. eapply rres_bind; [apply unshift_assign_rel; eauto|]. intros. now apply spline_neg_rel.
Qed.

Lemma elevate_to_rel fuel t dim s s' : srel RV s s' -> rres (srel RV) (elevate_to fuel t dim s) (elevate_to fuel t dim s').
Proof.
  intros Hs. unfold elevate_to. apply rres_while; auto.
  - intros x y H. now rewrite (sr_deg _ _ _ H).
  - intros. now apply OrderElevate_rel.
Qed.
Lemma elevate_all_rel fuel ts s s' : srel RV s s' -> rres (srel RV) (elevate_all fuel ts s) (elevate_all fuel ts s').
Proof.
  intros Hs. unfold elevate_all. rewrite (sr_deg _ _ _ Hs). apply rres_for_up; auto. intros. rsame.
  now apply elevate_to_rel.
Qed.
Lemma combine_assign_rel op op' n s s' r r' : (forall a b a' b', RV a a' -> RV b b' -> RV (op a b) (op' a' b')) ->
  srel RV s s' -> srel RV r r' -> rres (srel RV) (combine_assign op n s r) (combine_assign op' n s' r').
Proof.
  intros Hop Hs Hr. unfold combine_assign. eapply (rres_bind (Forall2 RV)).
  - apply rres_for_up; [apply Hs|]. intros i c c' Hc. eapply rres_bind; [apply rres_get; exact Hc|]. intros.
    eapply rres_bind; [apply rres_get; apply Hr|]. intros. apply rres_set; auto.
  - intros. simpl. apply srel_with; auto.
Qed.
Lemma spline_add_rec_rel depth fuel s s' r r' : srel RV s s' -> srel RV r r' ->
  rres (srel RV) (spline_add_rec depth fuel s r) (spline_add_rec depth fuel s' r').
Proof.
  revert s s' r r'; induction depth; intros s s' r r' Hs Hr; [exact I|]. cbn [spline_add_rec].
  rewrite (sr_deg _ _ _ Hs), (sr_deg _ _ _ Hr).
  eapply rres_bind; [apply Spline_deg_points_rel, Hs|]. intros e e' He. rsame.
  eapply rres_bind; [apply elevate_all_rel, He|]. intros f f' Hf. destruct q; cbn [negb].
  - apply IHdepth; auto.
  - rewrite (sr_n _ _ _ Hf). apply combine_assign_rel; auto. intros; apply (rm_add _ _ HM); auto.
Qed.
Lemma spline_add_rel fuel s s' r r' : srel RV s s' -> srel RV r r' ->
  rres (srel RV) (spline_add fuel s r) (spline_add fuel s' r').
Proof. apply spline_add_rec_rel. Qed.
Lemma spline_add_assign_rel fuel s s' r r' : srel RV s s' -> srel RV r r' ->
  rres (srel RV) (spline_add_assign fuel s r) (spline_add_assign fuel s' r').
Proof.
  intros Hs Hr. unfold spline_add_assign. rewrite (sr_deg _ _ _ Hr). eapply rres_bind; [apply elevate_all_rel, Hs|]. intros e e' He.
  rewrite (sr_deg _ _ _ He). eapply rres_bind; [apply elevate_all_rel, Hr|]. intros f f' Hf. rewrite (sr_n _ _ _ He).
  apply combine_assign_rel; auto. intros; apply (rm_add _ _ HM); auto.
Qed.
Lemma spline_sub_rel fuel s s' r r' : srel RV s s' -> srel RV r r' ->
  rres (srel RV) (spline_sub fuel s r) (spline_sub fuel s' r').
Proof.
  intros Hs Hr. unfold spline_sub. rewrite (sr_deg _ _ _ Hs), (sr_deg _ _ _ Hr).
  eapply rres_bind; [apply Spline_deg_points_rel, Hs|]. intros e e' He.
  eapply (rres_bind (srel RV)).
  { apply rres_for_up; auto. intros. rsame. rsame. apply rres_while; auto. intros; now apply OrderElevate_rel. }
  intros f f' Hf. eapply rres_bind; [apply elevate_all_rel, Hr|]. intros g g' Hg. rewrite (sr_n _ _ _ Hs).
  apply combine_assign_rel; auto. intros; apply (rm'_sub HM'); auto.
Qed.
Lemma spline_sub_assign_rel fuel s s' r r' : srel RV s s' -> srel RV r r' ->
  rres (srel RV) (spline_sub_assign fuel s r) (spline_sub_assign fuel s' r').
Proof.
  intros Hs Hr. unfold spline_sub_assign. rewrite (sr_deg _ _ _ Hr). eapply rres_bind; [apply elevate_all_rel, Hs|]. intros e e' He.
  rewrite (sr_deg _ _ _ He). eapply rres_bind; [apply elevate_all_rel, Hr|]. intros f f' Hf. rewrite (sr_n _ _ _ He).
  apply combine_assign_rel; auto. intros; apply (rm'_sub HM'); auto.
Qed.

(** The only comparisons are those of the position with 0 and 1. *)
Lemma SplitAtPosition_rel s s' x x' dim : srel RV s s' -> RT x x' ->
  sltb s0 x && sltb x s1 = sltb s0 x' && sltb x' s1 ->
  rres (Forall2 (srel RV)) (SplitAtPosition s x dim) (SplitAtPosition s' x' dim).
Proof.
  intros Hs Hx E. pose proof Hs as [Hd Hn Ho Hc]. unfold SplitAtPosition. rewrite E, Hd, Hn, Ho.
  destruct (negb _); [exact I|]. rsame. rsame. cbv zeta.
  assert (Hi : RT (ssub s1 x) (ssub s1 x')) by (apply (rr_sub _ HR); auto; apply (rr_1 _ HR); auto).
  eapply (rres_bind (fun a b => Forall2 RV (fst a) (fst b) /\ Forall2 RV (snd a) (snd b))).
  - apply rres_for_up; [split; auto|]. intros i st st' Hst. cbv zeta. apply rres_for_up; auto.
    intros j (c & e) (c' & e') (H1 & H2). simpl in H1, H2. eapply (rres_bind (Forall2 RV)).
    + apply rres_for_down; auto. intros k u u' Hu. cbv zeta.
      eapply rres_bind; [apply rres_get; exact Hu|]. intros v v' Hv.
      eapply rres_bind; [apply rres_get; exact Hu|]. intros w w' Hw. apply rres_set; auto.
      apply (rm_add _ _ HM); auto; apply (rm_scale _ _ HM); auto.
    + intros u u' Hu. eapply rres_bind; [apply rres_get; exact Hu|]. intros v v' Hv.
      eapply rres_bind; [apply rres_set; [exact H2|exact Hv]|]. intros. split; auto.
  - intros (c & e) (c' & e') (H1 & H2). simpl in H1, H2. simpl. repeat constructor; auto; apply srel_with; auto.
Qed.
End Rel.
Arguments rel_ring' {T1 T2 o1 o2} RT.
Arguments rel_mod' {T1 T2 V1 V2 ov1 ov2} RT RV.

Section Product.
Context {T1 T2 U1 U2 V1 V2 W1 W2 : Type} {o1 : SOps T1} {o2 : SOps T2} {ow1 : VOps T1 W1} {ow2 : VOps T2 W2}.
Context (RT : T1 -> T2 -> Prop) (RU : U1 -> U2 -> Prop) (RV : V1 -> V2 -> Prop) (RW : W1 -> W2 -> Prop).
Context (HR' : rel_ring' RT) (HM' : rel_mod' RT RW).
Let HR := rr'_ring _ HR'.
Let HM := rm'_mod _ _ HM'.
Context (pm1 : U1 -> V1 -> W1) (pm2 : U2 -> V2 -> W2).
Context (Hpm : forall a b a' b', RU a a' -> RV b b' -> RW (pm1 a b) (pm2 a' b')).

Lemma CombineControlPoints_rel MAXB rem : forall P P' Q Q' idx f f' ind s s', srel RU P P' -> srel RV Q Q' -> RT f f' ->
  srel RW s s' -> rres (srel RW) (CombineControlPoints MAXB pm1 rem P Q idx f ind s) (CombineControlPoints MAXB pm2 rem P' Q' idx f' ind s').
Proof.
  induction rem; intros P P' Q Q' idx f f' ind s s' HP HQ Hf Hs; [exact I|]. cbn [CombineControlPoints]. cbv zeta.
  rewrite (sr_deg _ _ _ HP), (sr_deg _ _ _ HQ). rsame. rsame. rsame. apply rres_for_up; auto. intros i u u' Hu.
  rsame. rsame. rsame. eapply rres_bind; [apply (rr'_divN _ HR'), rr_ofN; auto|]. intros l l' Hl. destruct rem.
  - eapply rres_bind; [apply (ControlPoint_rel RW); exact Hu|]. intros.
    eapply rres_bind; [apply (ControlPoint_rel RU); exact HP|]. intros.
    eapply rres_bind; [apply (ControlPoint_rel RV); exact HQ|]. intros.
    apply SetControlPoint_rel; auto. apply (rm_add _ _ HM); auto. apply (rm_scale _ _ HM); auto. apply (rm_scale _ _ HM); auto.
  - apply IHrem; auto. apply rr_mul; auto.
Qed.
Lemma spline_mul_rel MAXB P P' Q Q' : srel RU P P' -> srel RV Q Q' ->
  rres (srel RW) (spline_mul MAXB pm1 P Q) (spline_mul MAXB pm2 P' Q').
Proof.
  intros HP HQ. unfold spline_mul. rewrite (sr_deg _ _ _ HP), (sr_deg _ _ _ HQ). rsame.
  eapply rres_bind; [apply (Spline_deg_rel RT RW HM')|]. intros r r' Hr. rewrite (sr_n _ _ _ Hr).
  apply rres_for_up; auto. intros i u u' Hu. rewrite (LocalToGlobalIndex_rel _ _ _ _ Hu). rsame.
  apply CombineControlPoints_rel; auto. apply rr_1; auto.
Qed.
End Product.

Section ScalarOps.
Context {T1 T2 : Type} {o1 : SOps T1} {o2 : SOps T2} (RT : T1 -> T2 -> Prop) (HR' : rel_ring' RT).
Let HR := rr'_ring _ HR'.
Lemma rel_mod_scalar : rel_mod' (ov1 := VOps_scalar T1) (ov2 := VOps_scalar T2) RT RT.
Proof.
  split; [split|..]; simpl; intros; [apply rr_0|apply rr_add|apply rr_mul|apply rr_sub|apply rr'_opp]; auto.
Qed.
Lemma spline_mul_ss_rel MAXB P P' Q Q' : srel RT P P' -> srel RT Q Q' ->
  rres (srel RT) (spline_mul_ss MAXB P Q) (spline_mul_ss MAXB P' Q').
Proof. intros. apply (spline_mul_rel RT RT RT RT); auto. apply rel_mod_scalar. intros; apply rr_mul; auto. Qed.
Lemma const_one_rel dim : rres (srel RT) (const_one dim) (const_one dim).
Proof. apply Spline_deg_points_rel. repeat constructor. apply rr_1; auto. Qed.
Lemma RaisePower_rec_rel MAXB fuel s s' : forall k, srel RT s s' -> rres (srel RT) (RaisePower_rec MAXB fuel s k) (RaisePower_rec MAXB fuel s' k).
Proof.
  induction fuel; intros k Hs; [exact I|]. cbn [RaisePower_rec]. rewrite (sr_deg _ _ _ Hs).
  destruct (k =? 0); [apply const_one_rel|]. destruct (k =? 1); [exact Hs|].
  eapply rres_bind; [apply IHfuel, Hs|]. intros r r' Hr. eapply rres_bind; [apply spline_mul_ss_rel; exact Hr|]. intros q q' Hq.
  destruct (k mod 2 =? 0); [exact Hq|]. apply spline_mul_ss_rel; auto.
Qed.
Lemma RaisePower_rel MAXB s s' k : srel RT s s' -> rres (srel RT) (RaisePower MAXB s k) (RaisePower MAXB s' k).
Proof. intros. apply RaisePower_rec_rel; auto. Qed.
End ScalarOps.
