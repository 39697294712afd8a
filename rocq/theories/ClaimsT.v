(** C70: second derivatives with nested AlgoDiffType numbers. *)
From Coq Require Import Arith Lia List Bool ZArith Reals Lra.
From Verif Require Import Prelude ModelAD SpecAD SpecNested ProofAD ClaimsL.
Import ListNotations.
Local Open Scope R_scope.

(** ** Gradient of an expression *)
Definition bin_grad (b : binary) (x y dx dy : R) : R :=
  match b with
  | BAdd => dx + dy
  | BSub => dx - dy
  | BMul => dy * x + y * dx
  | BDiv => (y * dx - dy * x) * (1 / (y * y))
  | BPow => (dy * ln x + y * (dx * (1 / x))) * exp (ln x * y)
  end.
Fixpoint grad (e : expr) (i : nat) (xs : list R) : R :=
  match e with
  | EVar k => if (i =? k)%nat then 1 else 0
  | EConst _ => 0
  | EUn u e => grad e i xs * un_deriv u (value e xs)
  | EBin b e1 e2 => bin_grad b (value e1 xs) (value e2 xs) (grad e1 i xs) (grad e2 i xs)
  | EMix m e s => grad e i xs * mix_deriv m (value e xs) s
  end.

Lemma nested_no_zero e xs : nested_dom e xs -> no_zero_pow_zero e xs.
Proof.
  induction e; simpl; intros H; auto; try (destruct H; auto; fail). destruct H as (H1 & H2). split; auto. intros E. left. specialize (H2 E). lra.
Qed.

Lemma grad_ok e xs i : differentiable e xs -> no_zero_pow_zero e xs -> (i < length xs)%nat ->
  derivable_pt_lim (fun y => value e (upd_list xs i y)) (nth i xs 0) (grad e i xs).
Proof.
  intros HD HZ Hi. induction e as [k|c|u e IH|b e1 IH1 e2 IH2|m e IH s]; simpl in *.
  - destruct (Nat.eqb_spec i k) as [->|Hne].
    + apply (dl_ext (fun y => y)); [intros y; now rewrite nth_upd_same|apply dl_id].
    + apply (dl_ext (fun _ => nth k xs 0)); [intros y; rewrite nth_upd_other; auto|apply dl_const].
  - apply dl_const.
  - destruct HD as (HD & HU). specialize (IH HD HZ).
    eapply dl_eq; [|apply dl_comp; [exact IH|cbv beta; rewrite upd_same; apply un_dlim; exact HU]]. apply Rmult_comm.
  - destruct HD as (HD1 & HD2 & HU), HZ as (HZ1 & HZ2). specialize (IH1 HD1 HZ1). specialize (IH2 HD2 HZ2).
    destruct b; simpl in *.
    + apply dl_plus; auto.
    + apply dl_minus; auto.
    + eapply dl_eq; [|apply dl_mult; [exact IH1|exact IH2]]. cbv beta. rewrite upd_same. ring.
    + eapply dl_eq; [|apply dl_div; [cbv beta; rewrite upd_same; exact HU|exact IH1|exact IH2]].
      cbv beta. rewrite upd_same. unfold Rsqr. field. auto.
    + assert (HL : derivable_pt_lim (fun y => ln (value e1 (upd_list xs i y))) (nth i xs 0) (/ value e1 xs * grad e1 i xs)).
      { apply (dl_comp (fun y => value e1 (upd_list xs i y)) ln); auto. cbv beta. rewrite upd_same. apply derivable_pt_lim_ln. auto. }
      eapply dl_eq; [|apply (dl_comp (fun y => value e2 (upd_list xs i y) * ln (value e1 (upd_list xs i y))) exp);
        [apply dl_mult; [exact IH2|exact HL]|apply derivable_pt_lim_exp]].
      cbv beta. rewrite upd_same. rewrite (Rmult_comm (ln (value e1 xs)) (value e2 xs)). field. lra.
  - destruct HD as (HD & HU), HZ as (HZ & HP). specialize (IH HD HZ).
    eapply dl_eq; [|apply (dl_comp _ (fun x => mix_value m x s)); [exact IH|cbv beta; rewrite upd_same; apply mix_dlim; split; auto]].
    apply Rmult_comm.
Qed.

(** ** Neighbourhoods on coordinate lines *)
Definition near (xs : list R) (j : nat) (P : list R -> Prop) : Prop :=
  exists r, 0 < r /\ forall y, Rabs (y - nth j xs 0) < r -> P (upd_list xs j y).
Lemma near_and xs j P Q : near xs j P -> near xs j Q -> near xs j (fun ys => P ys /\ Q ys).
Proof.
  intros (r & Hr & H) (q & Hq & K). exists (Rmin r q). split; [apply Rmin_glb_lt; auto|].
  intros y Hy. split; [apply H|apply K]; (eapply Rlt_le_trans; [exact Hy|]); [apply Rmin_l|apply Rmin_r].
Qed.
Lemma near_imp xs j (P Q : list R -> Prop) : (forall ys, P ys -> Q ys) -> near xs j P -> near xs j Q.
Proof. intros H (r & Hr & K). exists r. split; auto. Qed.
Lemma near_all xs j (P : list R -> Prop) : (forall ys, P ys) -> near xs j P.
Proof. intros H. exists 1. split; auto. lra. Qed.

Lemma near_open xs j (f : list R -> R) l (U : R -> Prop) :
  derivable_pt_lim (fun y => f (upd_list xs j y)) (nth j xs 0) l ->
  (exists eps, 0 < eps /\ forall z, Rabs (z - f xs) < eps -> U z) ->
  near xs j (fun ys => U (f ys)).
Proof.
  intros HD (eps & He & HU).
  assert (HC : continuity_pt (fun y => f (upd_list xs j y)) (nth j xs 0)).
  { apply derivable_continuous_pt. exists l. exact HD. }
  destruct (HC eps He) as (del & Hdel & HC'). exists del. split; auto. intros y Hy. apply HU.
  destruct (Req_dec y (nth j xs 0)) as [->|Hne].
  - rewrite upd_same. replace (f xs - f xs) with 0 by ring. rewrite Rabs_R0. auto.
  - specialize (HC' y). simpl in HC'. unfold R_dist in HC'. rewrite upd_same in HC'. apply HC'. split; auto.
    split; [exact I|auto].
Qed.
Lemma open_gt c x : c < x -> exists eps, 0 < eps /\ forall z, Rabs (z - x) < eps -> c < z.
Proof. intros H. exists (x - c). split; [lra|]. intros z Hz. apply Rabs_def2 in Hz. lra. Qed.
Lemma open_ne x : x <> 0 -> exists eps, 0 < eps /\ forall z, Rabs (z - x) < eps -> z <> 0.
Proof.
  intros H. exists (Rabs x). split; [apply Rabs_pos_lt; auto|]. intros z Hz E. subst z.
  replace (0 - x) with (- x) in Hz by ring. rewrite Rabs_Ropp in Hz. lra.
Qed.
Lemma open_unit x : -1 < x < 1 -> exists eps, 0 < eps /\ forall z, Rabs (z - x) < eps -> -1 < z < 1.
Proof.
  intros H. exists (Rmin (x + 1) (1 - x)). split; [apply Rmin_glb_lt; lra|]. intros z Hz.
  assert (H1 : Rabs (z - x) < x + 1) by (eapply Rlt_le_trans; [exact Hz|apply Rmin_l]).
  assert (H2 : Rabs (z - x) < 1 - x) by (eapply Rlt_le_trans; [exact Hz|apply Rmin_r]).
  apply Rabs_def2 in H1. apply Rabs_def2 in H2. lra.
Qed.
Lemma open_cos x : cos x <> 0 -> exists eps, 0 < eps /\ forall z, Rabs (z - x) < eps -> cos z <> 0.
Proof.
  intros H. destruct (open_ne (cos x) H) as (e & He & HE).
  destruct (continuity_cos x e He) as (del & Hdel & HC). exists del. split; auto. intros z Hz. apply HE.
  destruct (Req_dec z x) as [->|Hne]; [replace (cos x - cos x) with 0 by ring; rewrite Rabs_R0; auto|].
  apply (HC z). split; [split; [exact I|auto]|exact Hz].
Qed.

(** The conditions hold in a neighbourhood if they hold at a point. *)
Lemma near_dom e xs j : differentiable e xs -> nested_dom e xs -> (j < length xs)%nat ->
  near xs j (fun ys => differentiable e ys /\ nested_dom e ys).
Proof.
  intros HD HN Hj.
  assert (HV : forall e, differentiable e xs -> nested_dom e xs -> forall U : R -> Prop,
    (exists eps, 0 < eps /\ forall z, Rabs (z - value e xs) < eps -> U z) -> near xs j (fun ys => U (value e ys))).
  { intros e' D' N' U HU. eapply near_open; [|exact HU]. apply grad_ok; auto. apply nested_no_zero; auto. }
  induction e as [k|c|u e IH|b e1 IH1 e2 IH2|m e IH s]; simpl in *.
  - exists 1. split; [lra|]. intros y _. rewrite length_upd. auto.
  - apply near_all. auto.
  - destruct HD as (HD & HU), HN as (HN & Hu). specialize (IH HD HN).
    assert (H : near xs j (fun ys => un_dom u (value e ys))).
    { destruct u; simpl in *; try (apply near_all; auto; fail).
      - apply (HV e HD HN (fun v => 0 < v)). apply open_gt. auto.
      - apply (HV e HD HN (fun v => 0 < v)). apply open_gt. auto.
      - apply (HV e HD HN (fun v => 0 < v)). apply open_gt. auto.
      - apply (HV e HD HN (fun v => v <> 0)). apply open_ne. auto.
      - apply (HV e HD HN (fun v => cos v <> 0)). apply open_cos. auto.
      - apply (HV e HD HN (fun v => -1 < v < 1)). apply open_unit. auto.
      - apply (HV e HD HN (fun v => -1 < v < 1)). apply open_unit. auto. }
    eapply near_imp; [|apply near_and; [exact IH|exact H]]. simpl. tauto.
  - destruct HD as (HD1 & HD2 & HU), HN as (HN1 & HN2). specialize (IH1 HD1 HN1). specialize (IH2 HD2 HN2).
    assert (H : near xs j (fun ys => bin_dom b (value e1 ys) (value e2 ys))).
    { destruct b; simpl in *; try (apply near_all; auto; fail).
      - apply (HV e2 HD2 HN2 (fun v => v <> 0)). apply open_ne. auto.
      - apply (HV e1 HD1 HN1 (fun v => 0 < v)). apply open_gt. auto. }
    eapply near_imp; [|apply near_and; [apply near_and; [exact IH1|exact IH2]|exact H]]. simpl. tauto.
  - destruct HD as (HD & HU), HN as (HN & Hm). specialize (IH HD HN).
    assert (H : near xs j (fun ys => mix_dom m (value e ys) s /\ (m = RPow -> 0 < value e ys))).
    { destruct m; simpl in *; try (apply near_all; intros; split; auto; discriminate).
      - eapply near_imp; [|apply (HV e HD HN (fun v => 0 < v)); apply open_gt; auto]. intros ys H. split; auto.
      - eapply near_imp; [|apply (HV e HD HN (fun v => v <> 0)); apply open_ne; auto]. intros ys H. split; auto. discriminate. }
    eapply near_imp; [|apply near_and; [exact IH|exact H]]. simpl. tauto.
Qed.

(** ** Tracking *)
Section Nested.
Context (xs : list R).
Let n := length xs.
Notation tr := (exact xs).
Notation nested := (ADScalar_nested n).

Lemma tr_loc f f' a : (forall j, (j < n)%nat -> near xs j (fun ys => f ys = f' ys)) -> f xs = f' xs -> tr f a -> tr f' a.
Proof.
  intros HN HE (HV & HL & HD). split; [congruence|]. split; auto. intros j Hj.
  destruct (HN j Hj) as (r & Hr & H). eapply (dl_loc _ _ _ _ r Hr); [|apply HD; auto]. intros y Hy. apply H. auto.
Qed.
Lemma tr_ext f f' a : (forall ys, f ys = f' ys) -> tr f a -> tr f' a.
Proof. apply exact_ext. Qed.
Lemma tr_near f a (U : R -> Prop) j : tr f a -> (exists eps, 0 < eps /\ forall z, Rabs (z - f xs) < eps -> U z) ->
  (j < n)%nat -> near xs j (fun ys => U (f ys)).
Proof. intros (_ & _ & HD) HU Hj. eapply near_open; [apply HD; exact Hj|exact HU]. Qed.

Lemma tr_const c : tr (fun _ => c) (AD_constant n c).
Proof. apply exact_constant. Qed.
Lemma tr_un u f a : tr f a -> un_dom u (f xs) -> exists b, un_ad u a = Ok b /\ tr (fun ys => un_value u (f ys)) b.
Proof. apply exact_un. Qed.
Lemma tr_bin b f g x y : tr f x -> tr g y -> bin_dom b (f xs) (g xs) ->
  exists r, bin_ad b x y = Ok r /\ tr (fun ys => bin_value b (f ys) (g ys)) r.
Proof. apply exact_bin. Qed.
Lemma tr_mix m f a s : tr f a -> mix_dom' m (f xs) s -> exists b, mix_ad m a s = Ok b /\ tr (fun ys => mix_value m (f ys) s) b.
Proof. apply exact_mix. Qed.
Lemma tr_add f g x y : tr f x -> tr g y -> exists r, a_add (ADScalar := nested) x y = Ok r /\ tr (fun ys => f ys + g ys) r.
Proof. intros; apply (tr_bin BAdd); simpl; auto. Qed.
Lemma tr_sub f g x y : tr f x -> tr g y -> exists r, a_sub (ADScalar := nested) x y = Ok r /\ tr (fun ys => f ys - g ys) r.
Proof. intros; apply (tr_bin BSub); simpl; auto. Qed.
Lemma tr_mul f g x y : tr f x -> tr g y -> exists r, a_mul (ADScalar := nested) x y = Ok r /\ tr (fun ys => f ys * g ys) r.
Proof. intros; apply (tr_bin BMul); simpl; auto. Qed.
Lemma tr_div f g x y : tr f x -> tr g y -> g xs <> 0 -> exists r, a_div (ADScalar := nested) x y = Ok r /\ tr (fun ys => f ys / g ys) r.
Proof. intros; apply (tr_bin BDiv); simpl; auto. Qed.
Lemma tr_neg f x : tr f x -> exists r, a_neg (ADScalar := nested) x = Ok r /\ tr (fun ys => - f ys) r.
Proof. intros; apply (tr_un UNeg); simpl; auto. Qed.
Lemma tr_div_l c f x : tr f x -> f xs <> 0 -> exists r, a_div_l (ADScalar := nested) c x = Ok r /\ tr (fun ys => c / f ys) r.
Proof. intros; apply (tr_mix LDiv); [auto|split; [simpl; auto|discriminate]]. Qed.

(** Loops over the derivatives. *)
Lemma each_tr (f : adt R -> res (adt R)) d (G H : nat -> list R -> R) : length d = n ->
  (forall k, (k < n)%nat -> tr (G k) (nth k d (AD_constant n 0))) ->
  (forall k x, (k < n)%nat -> tr (G k) x -> exists y, f x = Ok y /\ tr (H k) y) ->
  exists r, each f d = Ok r /\ length r = n /\ forall k, (k < n)%nat -> tr (H k) (nth k r (AD_constant n 0)).
Proof.
  intros HL HG HF. unfold each. rewrite HL.
  edestruct (for_up_inv (fun i e => length e = n /\ forall k, (k < n)%nat ->
    tr (if (k <? i)%nat then H k else G k) (nth k e (AD_constant n 0)))) as (e & E & HLe & HN).
  3:{ rewrite E. exists e. split; auto. split; auto. intros k Hk. specialize (HN k Hk).
      rewrite (proj2 (Nat.ltb_lt _ _)) in HN by (simpl; lia). exact HN. }
  - split; auto.
  - intros i e Hi (HLe & HN). cbv beta. rewrite (get_ok (AD_constant n 0)) by lia. cbn [bind].
    pose proof (HN i ltac:(lia)) as HI. rewrite (proj2 (Nat.ltb_ge i i)) in HI by lia.
    destruct (HF i _ ltac:(lia) HI) as (y & -> & HY). cbn [bind]. rewrite set_ok by lia. eexists. split; [reflexivity|].
    split; [now rewrite length_upd|]. intros k Hk. rewrite nth_upd by lia. specialize (HN k Hk).
    destruct (Nat.eqb_spec k i) as [->|Hne]; [rewrite (proj2 (Nat.ltb_lt i (S i))) by lia; auto|].
    destruct (Nat.ltb_spec k i), (Nat.ltb_spec k (S i)); auto; lia.
Qed.
Lemma each2_tr (f : adt R -> adt R -> res (adt R)) d e (G G' H : nat -> list R -> R) : length d = n -> length e = n ->
  (forall k, (k < n)%nat -> tr (G k) (nth k d (AD_constant n 0))) ->
  (forall k, (k < n)%nat -> tr (G' k) (nth k e (AD_constant n 0))) ->
  (forall k x z, (k < n)%nat -> tr (G k) x -> tr (G' k) z -> exists y, f x z = Ok y /\ tr (H k) y) ->
  exists r, each2 f d e = Ok r /\ length r = n /\ forall k, (k < n)%nat -> tr (H k) (nth k r (AD_constant n 0)).
Proof.
  intros HL HLe HG HG' HF. unfold each2. rewrite HL.
  edestruct (for_up_inv (fun i r => length r = n /\ forall k, (k < n)%nat ->
    tr (if (k <? i)%nat then H k else G k) (nth k r (AD_constant n 0)))) as (r & E & HLr & HN).
  3:{ rewrite E. exists r. split; auto. split; auto. intros k Hk. specialize (HN k Hk).
      rewrite (proj2 (Nat.ltb_lt _ _)) in HN by (simpl; lia). exact HN. }
  - split; auto.
  - intros i r Hi (HLr & HN). cbv beta. rewrite (get_ok (AD_constant n 0) r) by lia. cbn [bind].
    rewrite (get_ok (AD_constant n 0) e) by lia. cbn [bind].
    pose proof (HN i ltac:(lia)) as HI. rewrite (proj2 (Nat.ltb_ge i i)) in HI by lia.
    destruct (HF i _ _ ltac:(lia) HI (HG' i ltac:(lia))) as (y & -> & HY). cbn [bind]. rewrite set_ok by lia. eexists. split; [reflexivity|].
    split; [now rewrite length_upd|]. intros k Hk. rewrite nth_upd by lia. specialize (HN k Hk).
    destruct (Nat.eqb_spec k i) as [->|Hne]; [rewrite (proj2 (Nat.ltb_lt i (S i))) by lia; auto|].
    destruct (Nat.ltb_spec k i), (Nat.ltb_spec k (S i)); auto; lia.
Qed.

(** A nested number holds the value and gradient of [f], its derivatives those of [G]. *)
Definition tr2 (f : list R -> R) (G : nat -> list R -> R) (A : adt (adt R)) : Prop :=
  tr f (ad_v A) /\ length (ad_d A) = n /\ forall k, (k < n)%nat -> tr (G k) (nth k (ad_d A) (AD_constant n 0)).
Lemma tr2_intro f G v d : tr f v -> length d = n -> (forall k, (k < n)%nat -> tr (G k) (nth k d (AD_constant n 0))) -> tr2 f G (mkADT v d).
Proof. intros; repeat split; auto; apply H || (apply H1; auto). Qed.
Lemma tr2_ext f f' (G G' : nat -> list R -> R) A : (forall ys, f ys = f' ys) -> (forall k ys, G k ys = G' k ys) -> tr2 f G A -> tr2 f' G' A.
Proof.
  intros H K (H1 & H2 & H3). split; [eapply tr_ext; eauto|]. split; auto. intros k Hk. eapply tr_ext; [|apply H3; auto]. auto.
Qed.

(** Multiplying all derivatives by one number. *)
Lemma each_scale d h aux (G : nat -> list R -> R) : length d = n -> (forall k, (k < n)%nat -> tr (G k) (nth k d (AD_constant n 0))) -> tr h aux ->
  exists r, each (fun x => a_mul (ADScalar := nested) x aux) d = Ok r /\ length r = n /\
    forall k, (k < n)%nat -> tr (fun ys => G k ys * h ys) (nth k r (AD_constant n 0)).
Proof. intros HL HG HA. apply (each_tr _ d G); auto. intros k x Hk Hx. apply tr_mul; auto. Qed.

(** One step of a computation on inner numbers, and a loop over the derivatives. *)
Tactic Notation "inner" open_constr(L) := let r := fresh "r" in let E := fresh "E" in let H := fresh "T" in
  edestruct L as (r & E & H); [..|rewrite E; cbn [bind ad_v ad_d]].
Tactic Notation "outer" open_constr(L) := let r := fresh "e" in let E := fresh "E" in let HL := fresh "L" in let H := fresh "T" in
  edestruct L as (r & E & HL & H); [..|rewrite E; cbn [bind ad_v ad_d]].
Lemma tr_un' u f a (op : adt R -> res (adt R)) : op = un_ad u -> tr f a -> un_dom u (f xs) ->
  exists b, op a = Ok b /\ tr (fun ys => un_value u (f ys)) b.
Proof. intros ->. apply tr_un. Qed.
Lemma tr_mix' m f a s (op : adt R -> res (adt R)) : (forall a, op a = mix_ad m a s) -> tr f a -> mix_dom' m (f xs) s ->
  exists b, op a = Ok b /\ tr (fun ys => mix_value m (f ys) s) b.
Proof. intros H Ha Hm. rewrite H. apply tr_mix; auto. Qed.

Lemma tr2_un u f G A : tr2 f G A -> un_dom u (f xs) -> u <> UAcos ->
  exists B, un_ad2 n u A = Ok B /\ tr2 (fun ys => un_value u (f ys)) (fun k ys => G k ys * un_deriv u (f ys)) B.
Proof.
  intros (HV & HL & HG) HD Hu. destruct A as (v & d). cbn [ad_v ad_d] in *.
  destruct u; try contradiction; cbn [un_ad2]; simpl un_dom in HD.
  - unfold AD_neg. cbn [ad_v ad_d]. inner (tr_neg f v); [exact HV|].
    outer (each_tr (a_neg (ADScalar := nested)) d G (fun k ys => - G k ys)); auto.
    { intros k x Hk Hx. apply tr_neg. auto. }
    eexists. split; [reflexivity|]. apply tr2_intro; auto. intros k Hk. eapply tr_ext; [|apply T0; auto]. intros ys. simpl. ring.
  - unfold AD_exp at 1, AD_mul_scalar. cbn [ad_v ad_d].
    inner (tr_un' UExp f v (a_exp (ADScalar := nested))); [reflexivity|exact HV|exact I|].
    inner (tr_mul (fun _ => 1) (fun ys => un_value UExp (f ys)) (a_lit (ADScalar := nested) 1) r); [apply tr_const|exact T|].
    outer (each_scale d _ r G); eauto. eexists. split; [reflexivity|]. apply tr2_intro; auto.
    eapply tr_ext; [|exact T0]. intros ys. simpl. ring.
  - unfold AD_log at 1. cbn [ad_v ad_d]. inner (tr_div_l 1 f v); [exact HV|lra|].
    inner (tr_un' ULog f v (a_log (ADScalar := nested))); [reflexivity|exact HV|exact HD|].
    outer (each_scale d _ r G); eauto. eexists. split; [reflexivity|]. apply tr2_intro; auto.
  - unfold AD_log10 at 1. cbn [ad_v ad_d]. pose proof ln10_pos.
    inner (tr_mix' RMul f v (ln 10) (fun a => a_mul_r (ADScalar := nested) a (ln 10))); [reflexivity|exact HV|split; [exact I|discriminate]|].
    inner (tr_div_l 1 _ r); [exact T|simpl; apply Rmult_integral_contrapositive; split; lra|].
    inner (tr_un' ULog10 f v (a_log10 (ADScalar := nested))); [reflexivity|exact HV|exact HD|].
    outer (each_scale d _ r0 G); eauto. eexists. split; [reflexivity|]. apply tr2_intro; auto.
  - unfold AD_sqrt at 1. cbn [ad_v ad_d].
    inner (tr_un' USqrt f v (a_sqrt (ADScalar := nested))); [reflexivity|exact HV|exact HD|].
    inner (tr_div_l (/ 2) _ r); [exact T|simpl; apply Rgt_not_eq, sqrt_lt_R0; auto|].
    outer (each_scale d _ r0 G); eauto. eexists. split; [reflexivity|]. apply tr2_intro; auto.
  - unfold AD_abs at 1. cbn [ad_v ad_d a_gt_r ADScalar_nested]. pose proof HV as (HE & _). rewrite HE.
    destruct (Rlt_dec 0 (f xs)) as [Hp|Hp].
    + rewrite gtb_true by auto. eexists. split; [reflexivity|].
      assert (HN : forall j, (j < n)%nat -> near xs j (fun ys => 0 < f ys)).
      { intros j Hj. apply (tr_near f v (fun z => 0 < z)); auto. apply open_gt. auto. }
      apply tr2_intro; auto.
      * apply (fun H1 H2 => tr_loc _ _ _ H1 H2 HV); [|simpl; rewrite Rabs_right; [reflexivity|lra]]. intros j Hj.
        eapply near_imp; [|apply HN; auto]. intros ys H. simpl. rewrite Rabs_right; lra.
      * intros k Hk. apply (fun H1 H2 => tr_loc _ _ _ H1 H2 (HG k Hk)).
        -- intros j Hj. eapply near_imp; [|apply HN; auto]. intros ys H. simpl. destruct (Rlt_dec 0 (f ys)); [ring|contradiction].
        -- simpl. destruct (Rlt_dec 0 (f xs)); [ring|contradiction].
    + rewrite gtb_false by auto. unfold AD_neg. cbn [ad_v ad_d]. inner (tr_neg f v); [exact HV|].
      outer (each_tr (a_neg (ADScalar := nested)) d G (fun k ys => - G k ys)); auto.
      { intros k x Hk Hx. apply tr_neg. auto. }
      eexists. split; [reflexivity|].
      assert (HN : forall j, (j < n)%nat -> near xs j (fun ys => f ys < 0)).
      { intros j Hj. apply (tr_near f v (fun z => z < 0)); auto. destruct (open_gt 0 (- f xs)) as (eps & He & H); [lra|].
        exists eps. split; auto. intros z Hz. specialize (H (- z)). replace (- z - - f xs) with (- (z - f xs)) in H by ring.
        rewrite Rabs_Ropp in H. specialize (H Hz). lra. }
      apply tr2_intro; auto.
      * apply (fun H1 H2 => tr_loc _ _ _ H1 H2 T); [|simpl; rewrite Rabs_left; [reflexivity|lra]]. intros j Hj.
        eapply near_imp; [|apply HN; auto]. intros ys H. simpl. rewrite Rabs_left; lra.
      * intros k Hk. apply (fun H1 H2 => tr_loc _ _ _ H1 H2 (T0 k Hk)).
        -- intros j Hj. eapply near_imp; [|apply HN; auto]. intros ys H. simpl. destruct (Rlt_dec 0 (f ys)); [lra|ring].
        -- simpl. destruct (Rlt_dec 0 (f xs)); [lra|ring].
  - unfold AD_sin at 1. cbn [ad_v ad_d].
    inner (tr_un' UCos f v (a_cos (ADScalar := nested))); [reflexivity|exact HV|exact I|].
    inner (tr_un' USin f v (a_sin (ADScalar := nested))); [reflexivity|exact HV|exact I|].
    outer (each_scale d _ r G); eauto. eexists. split; [reflexivity|]. apply tr2_intro; auto.
  - unfold AD_cos at 1. cbn [ad_v ad_d].
    inner (tr_un' USin f v (a_sin (ADScalar := nested))); [reflexivity|exact HV|exact I|].
    inner (tr_neg _ r); [exact T|].
    inner (tr_un' UCos f v (a_cos (ADScalar := nested))); [reflexivity|exact HV|exact I|].
    outer (each_scale d _ r0 G); eauto. eexists. split; [reflexivity|]. apply tr2_intro; auto.
  - unfold AD_tan at 1. cbn [ad_v ad_d].
    inner (tr_un' UCos f v (a_cos (ADScalar := nested))); [reflexivity|exact HV|exact I|].
    inner (tr_div_l 1 _ r); [exact T|exact HD|].
    inner (tr_mul _ _ r0 r0); [exact T0|exact T0|].
    inner (tr_un' UTan f v (a_tan (ADScalar := nested))); [reflexivity|exact HV|exact HD|].
    outer (each_scale d _ r1 G); eauto. eexists. split; [reflexivity|]. apply tr2_intro; auto.
  - assert (Hs : 0 < 1 - f xs * f xs) by nra. unfold AD_asin at 1. cbn [ad_v ad_d].
    inner (tr_mul _ _ v v); [exact HV|exact HV|].
    inner (tr_mix' LSub (fun ys => f ys * f ys) r 1 (a_sub_l (ADScalar := nested) 1)); [reflexivity|exact T|split; [exact I|discriminate]|].
    inner (tr_un' USqrt _ r0 (a_sqrt (ADScalar := nested))); [reflexivity|exact T0|exact Hs|].
    inner (tr_div_l 1 _ r1); [exact T1|simpl; apply Rgt_not_eq, sqrt_lt_R0; auto|].
    inner (tr_un' UAsin f v (a_asin (ADScalar := nested))); [reflexivity|exact HV|exact HD|].
    outer (each_scale d _ r2 G); eauto. eexists. split; [reflexivity|]. apply tr2_intro; auto.
  - unfold AD_atan at 1. cbn [ad_v ad_d].
    inner (tr_mul _ _ v v); [exact HV|exact HV|].
    inner (tr_mix' LAdd (fun ys => f ys * f ys) r 1 (a_add_l (ADScalar := nested) 1)); [reflexivity|exact T|split; [exact I|discriminate]|].
    inner (tr_div_l 1 _ r0); [exact T0|simpl; nra|].
    inner (tr_un' UAtan f v (a_atan (ADScalar := nested))); [reflexivity|exact HV|exact I|].
    outer (each_scale d _ r1 G); eauto. eexists. split; [reflexivity|]. apply tr2_intro; auto.
Qed.

Lemma tr2_mul f g G H A B : tr2 f G A -> tr2 g H B ->
  exists C, AD_mul (os := nested) A B = Ok C /\ tr2 (fun ys => f ys * g ys) (fun k ys => H k ys * f ys + g ys * G k ys) C.
Proof.
  intros (HV & HL & HG) (HV' & HL' & HG'). destruct A as (v & d), B as (w & e). cbn [ad_v ad_d] in *.
  unfold AD_mul at 1, AD_mul_assign, same_number. cbn [ad_v ad_d]. rewrite HL, HL', Nat.eqb_refl. cbn [bind assert_].
  outer (each2_tr (fun x z => do l <- a_mul (ADScalar := nested) z v; do r <- a_mul (ADScalar := nested) w x; a_add (ADScalar := nested) l r)
    d e G H (fun k ys => H k ys * f ys + g ys * G k ys)); auto.
  { intros k x z Hk Hx Hz. inner (tr_mul _ _ z v); [exact Hz|exact HV|]. inner (tr_mul _ _ w x); [exact HV'|exact Hx|].
    apply tr_add; auto. }
  inner (tr_mul _ _ v w); [exact HV|exact HV'|]. eexists. split; [reflexivity|]. apply tr2_intro; auto.
Qed.

Lemma tr2_bin b f g G H A B : tr2 f G A -> tr2 g H B -> bin_dom b (f xs) (g xs) ->
  exists C, bin_ad2 n b A B = Ok C /\
    tr2 (fun ys => bin_value b (f ys) (g ys)) (fun k ys => bin_grad b (f ys) (g ys) (G k ys) (H k ys)) C.
Proof.
  intros HA HB HD. pose proof HA as (HV & HL & HG). pose proof HB as (HV' & HL' & HG').
  destruct A as (v & d), B as (w & e). cbn [ad_v ad_d] in *. destruct b; cbn [bin_ad2 bin_dom] in *.
  - unfold AD_add at 1, AD_add_assign, same_number. cbn [ad_v ad_d]. rewrite HL, HL', Nat.eqb_refl. cbn [bind assert_].
    inner (tr_add _ _ v w); [exact HV|exact HV'|].
    outer (each2_tr (a_add (ADScalar := nested)) d e G H (fun k ys => G k ys + H k ys)); auto.
    { intros. apply tr_add; auto. }
    eexists. split; [reflexivity|]. apply tr2_intro; auto.
  - unfold AD_sub at 1, AD_sub_assign, same_number. cbn [ad_v ad_d]. rewrite HL, HL', Nat.eqb_refl. cbn [bind assert_].
    inner (tr_sub _ _ v w); [exact HV|exact HV'|].
    outer (each2_tr (a_sub (ADScalar := nested)) d e G H (fun k ys => G k ys - H k ys)); auto.
    { intros. apply tr_sub; auto. }
    eexists. split; [reflexivity|]. apply tr2_intro; auto.
  - apply tr2_mul; auto.
  - unfold AD_div at 1, AD_div_assign, same_number. cbn [ad_v ad_d]. rewrite HL, HL', Nat.eqb_refl. cbn [bind assert_].
    inner (tr_mul _ _ w w); [exact HV'|exact HV'|].
    inner (tr_div_l 1 _ r); [exact T|apply Rmult_integral_contrapositive; auto|].
    outer (each2_tr (fun x z => do l <- a_mul (ADScalar := nested) w x; do r <- a_mul (ADScalar := nested) z v;
        do m <- a_sub (ADScalar := nested) l r; a_mul (ADScalar := nested) m r0)
      d e G H (fun k ys => (g ys * G k ys - H k ys * f ys) * (1 / (g ys * g ys)))); auto.
    { intros k x z Hk Hx Hz. inner (tr_mul _ _ w x); [exact HV'|exact Hx|]. inner (tr_mul _ _ z v); [exact Hz|exact HV|].
      inner (tr_sub _ _ r1 r2); [eassumption|eassumption|]. apply tr_mul; auto. }
    inner (tr_div _ _ v w); [exact HV|exact HV'|exact HD|]. eexists. split; [reflexivity|]. apply tr2_intro; auto.
  - unfold AD_pow at 1.
    destruct (tr2_un ULog f G (mkADT v d) HA HD) as (l & El & Tl); [discriminate|]. cbn [un_ad2] in El. rewrite El. cbn [bind].
    destruct (tr2_mul _ _ _ _ l (mkADT w e) Tl HB) as (m & Em & Tm). rewrite Em. cbn [bind].
    destruct (tr2_un UExp _ _ m Tm I) as (r & Er & Tr); [discriminate|]. cbn [un_ad2] in Er. exists r. split; [exact Er|].
    eapply tr2_ext; [| |exact Tr]; intros; simpl; auto. f_equal. ring.
Qed.

Lemma tr2_mix m f G A s : tr2 f G A -> mix_dom m (f xs) s -> (m = RPow -> 0 < f xs) ->
  exists B, mix_ad2 n m A s = Ok B /\ tr2 (fun ys => mix_value m (f ys) s) (fun k ys => G k ys * mix_deriv m (f ys) s) B.
Proof.
  intros (HV & HL & HG) HD HP. destruct A as (v & d). cbn [ad_v ad_d] in *.
  assert (HS := tr_const s). assert (HGi : forall c, c = 1 -> forall k, (k < n)%nat -> tr (fun ys => G k ys * c) (nth k d (AD_constant n 0))).
  { intros c -> k Hk. eapply tr_ext; [|apply HG; auto]. intros. ring. }
  destruct m; cbn [mix_ad2]; simpl mix_dom in HD.
  - unfold AD_add_scalar. cbn [ad_v ad_d]. inner (tr_add _ _ v (AD_constant n s)); [exact HV|exact HS|].
    eexists. split; [reflexivity|]. apply tr2_intro; [exact T|auto|apply (HGi 1 eq_refl)].
  - unfold AD_sub_scalar. cbn [ad_v ad_d]. inner (tr_sub _ _ v (AD_constant n s)); [exact HV|exact HS|].
    eexists. split; [reflexivity|]. apply tr2_intro; [exact T|auto|apply (HGi 1 eq_refl)].
  - unfold AD_mul_scalar. cbn [ad_v ad_d]. inner (tr_mul _ _ v (AD_constant n s)); [exact HV|exact HS|].
    outer (each_scale d _ (AD_constant n s) G); eauto. eexists. split; [reflexivity|]. apply tr2_intro; auto.
  - unfold AD_div_scalar. cbn [ad_v ad_d]. inner (tr_div_l 1 _ (AD_constant n s)); [exact HS|exact HD|].
    inner (tr_mul _ _ v r); [exact HV|exact T|].
    outer (each_scale d _ r G); eauto. eexists. split; [reflexivity|]. apply tr2_intro; auto.
    eapply tr_ext; [|exact T0]. intros ys. simpl. field. auto.
  - specialize (HP eq_refl). unfold AD_pow_scalar. cbn [ad_v ad_d].
    inner (tr_mix' RSub (fun _ => s) (AD_constant n s) 1 (fun a => a_sub_r (ADScalar := nested) a 1)); [reflexivity|exact HS|split; [exact I|discriminate]|].
    assert (TP : exists p, a_pow (ADScalar := nested) v r = Ok p /\ tr (fun ys => bin_value BPow (f ys) (s - 1)) p).
    { apply (tr_bin BPow f (fun _ => s - 1)); auto. }
    destruct TP as (p & -> & TP). cbn [bind].
    inner (tr_mul _ _ v p); [exact HV|exact TP|].
    outer (each_tr (fun x => do c <- a_mul (ADScalar := nested) (AD_constant n s) p; a_mul (ADScalar := nested) x c) d G
      (fun k ys => G k ys * (s * bin_value BPow (f ys) (s - 1)))); auto.
    { intros k x Hk Hx. inner (tr_mul _ _ (AD_constant n s) p); [exact HS|exact TP|]. apply tr_mul; auto. }
    assert (HN : forall j, (j < n)%nat -> near xs j (fun ys => 0 < f ys)).
    { intros j Hj. apply (tr_near f v (fun z => 0 < z)); auto. apply open_gt. auto. }
    assert (HB : forall ys, 0 < f ys -> bin_value BPow (f ys) (s - 1) = real_pow (f ys) (s - 1)).
    { intros ys H. rewrite real_pow_pos by auto. reflexivity. }
    assert (HR : forall ys, 0 < f ys -> f ys * bin_value BPow (f ys) (s - 1) = mix_value RPow (f ys) s).
    { intros ys H. rewrite HB by auto. apply real_pow_step. auto. }
    eexists. split; [reflexivity|]. apply tr2_intro; auto.
    + apply (fun H1 H2 => tr_loc _ _ _ H1 H2 T0); [|apply HR; auto]. intros j Hj. eapply near_imp; [|apply HN; auto]. intros ys H. apply HR. auto.
    + intros k Hk. apply (fun H1 H2 => tr_loc _ _ _ H1 H2 (T1 k Hk)).
      * intros j Hj. eapply near_imp; [|apply HN; auto]. intros ys H. cbv beta. rewrite HB by auto. reflexivity.
      * cbv beta. rewrite HB by auto. reflexivity.
  - unfold scalar_add, AD_add_scalar. cbn [ad_v ad_d]. inner (tr_add _ _ v (AD_constant n s)); [exact HV|exact HS|].
    eexists. split; [reflexivity|]. apply tr2_intro; [|auto|apply (HGi 1 eq_refl)]. eapply tr_ext; [|exact T]. intros. simpl. ring.
  - unfold scalar_sub, AD_neg, AD_add_scalar. cbn [ad_v ad_d]. inner (tr_neg f v); [exact HV|].
    outer (each_tr (a_neg (ADScalar := nested)) d G (fun k ys => - G k ys)); auto.
    { intros k x Hk Hx. apply tr_neg. auto. }
    inner (tr_add _ _ r (AD_constant n s)); [exact T|exact HS|].
    eexists. split; [reflexivity|]. apply tr2_intro; auto.
    + eapply tr_ext; [|exact T1]. intros. simpl. ring.
    + intros k Hk. eapply tr_ext; [|apply T0; auto]. intros ys. simpl. ring.
  - unfold scalar_mul, AD_mul_scalar. cbn [ad_v ad_d]. inner (tr_mul _ _ v (AD_constant n s)); [exact HV|exact HS|].
    outer (each_scale d _ (AD_constant n s) G); eauto. eexists. split; [reflexivity|]. apply tr2_intro; auto.
    eapply tr_ext; [|exact T]. intros. simpl. ring.
  - unfold scalar_div. cbn [ad_v ad_d]. inner (tr_neg _ (AD_constant n s)); [exact HS|].
    inner (tr_mul _ _ v v); [exact HV|exact HV|].
    inner (tr_div _ _ r r0); [exact T|exact T0|apply Rmult_integral_contrapositive; auto|].
    inner (tr_neg _ r1); [exact T1|].
    inner (tr_mul _ _ v r2); [exact HV|exact T2|].
    outer (each_scale d _ r1 G); eauto. eexists. split; [reflexivity|]. apply tr2_intro; auto.
    assert (HE : forall x, x <> 0 -> x * - (- s / (x * x)) = s / x) by (intros; field; auto).
    apply (fun H1 H2 => tr_loc _ _ _ H1 H2 T3).
    + intros j Hj. eapply near_imp; [|apply (tr_near f v (fun z => z <> 0)); auto; apply open_ne; auto]. intros ys H. apply HE. auto.
    + apply HE. auto.
Qed.

Lemma tr2_input i : (i < n)%nat ->
  exists A, (do v <- AD_input n (nth i xs 0) i; AD_input (os := nested) n v i) = Ok A /\
    tr2 (fun ys => nth i ys 0) (fun k _ => if (k =? i)%nat then 1 else 0) A.
Proof.
  intros Hi. destruct (exact_input xs i Hi) as (v & E & T). unfold n at 1. rewrite E. cbn [bind].
  unfold AD_input. rewrite repeat_length. rewrite (proj2 (Nat.ltb_lt i _)) by auto. cbn [bind assert_].
  rewrite set_ok by (rewrite repeat_length; auto). cbn [bind]. eexists. split; [reflexivity|]. apply tr2_intro; auto.
  - now rewrite length_upd, repeat_length.
  - intros k Hk. rewrite nth_upd by (rewrite repeat_length; auto). destruct (k =? i)%nat; [apply tr_const|].
    change (a_zero (ADScalar := nested)) with (AD_constant n 0). rewrite nth_repeat. apply tr_const.
Qed.
Lemma tr2_constant c : tr2 (fun _ => c) (fun _ _ => 0) (AD_constant (os := nested) n (AD_constant n c)).
Proof.
  apply tr2_intro; [apply tr_const|apply repeat_length|]. intros k Hk.
  change (a_zero (ADScalar := nested)) with (AD_constant n 0). rewrite nth_repeat. apply tr_const.
Qed.

Lemma tr2_compute e : differentiable e xs -> nested_dom e xs ->
  exists A, compute2 e xs = Ok A /\ tr2 (value e) (grad e) A.
Proof.
  intros HD HN. induction e as [i|c|u e IH|b e1 IH1 e2 IH2|m e IH s]; simpl in HD, HN; cbn [compute2]; fold n.
  - apply tr2_input. auto.
  - eexists. split; [reflexivity|]. apply tr2_constant.
  - destruct HD as (HD & HU), HN as (HN & Hu). destruct (IH HD HN) as (A & -> & TA). cbn [bind]. apply (tr2_un u (value e) (grad e)); auto.
  - destruct HD as (HD1 & HD2 & HU), HN as (HN1 & HN2). destruct (IH1 HD1 HN1) as (A & -> & TA).
    destruct (IH2 HD2 HN2) as (B & -> & TB). cbn [bind]. apply (tr2_bin b (value e1) (value e2) (grad e1) (grad e2)); auto.
  - destruct HD as (HD & HU), HN as (HN & Hm). destruct (IH HD HN) as (A & -> & TA). cbn [bind]. apply (tr2_mix m (value e) (grad e)); auto.
Qed.
End Nested.

Lemma c70_hessian_partial : forall (e : expr) (xs : list R), differentiable e xs -> nested_dom e xs ->
  exists A, compute2 e xs = Ok A /\ ad_v (ad_v A) = value e xs /\
    length (ad_d (ad_v A)) = length xs /\ length (ad_d A) = length xs /\
    (forall i, (i < length xs)%nat ->
       derivable_pt_lim (fun y => value e (upd_list xs i y)) (nth i xs 0) (nth i (ad_d (ad_v A)) 0)) /\
    (forall i j (D := nth i (ad_d A) (AD_constant 0 0)), (i < length xs)%nat -> (j < length xs)%nat ->
       length (ad_d D) = length xs /\ ad_v D = nth i (ad_d (ad_v A)) 0 /\
       exists g : R -> R,
         (exists r, 0 < r /\ forall y, Rabs (y - nth j xs 0) < r -> let ys := upd_list xs j y in
            derivable_pt_lim (fun t => value e (upd_list ys i t)) (nth i ys 0) (g y)) /\
         derivable_pt_lim g (nth j xs 0) (nth j (ad_d D) 0)).
Proof.
  intros e xs HD HN. destruct (tr2_compute xs e HD HN) as (A & E & (HV & HVL & HVD) & HL & HG).
  exists A. split; [exact E|]. split; [exact HV|]. split; [exact HVL|]. split; [exact HL|]. split; [exact HVD|].
  intros i j D Hi Hj. unfold D. rewrite (nth_indep _ _ (AD_constant (length xs) 0)) by lia.
  destruct (HG i Hi) as (HGV & HGL & HGD). split; [exact HGL|]. split.
  - rewrite HGV. eapply uniqueness_limite; [|apply HVD; auto]. apply grad_ok; auto. apply nested_no_zero; auto.
  - exists (fun y => grad e i (upd_list xs j y)). split.
    + destruct (near_dom e xs j HD HN Hj) as (r & Hr & HU). exists r. split; auto. intros y Hy. cbv zeta.
      destruct (HU y Hy) as (H1 & H2). apply grad_ok; auto; [apply nested_no_zero; auto|]. now rewrite length_upd.
    + apply HGD. auto.
Qed.

(** x^2 at x = -1: the inner power goes through the logarithm. *)
Lemma c70_negative_pow_refuted : exists (e : expr) (xs : list R),
  differentiable e xs /\ compute2 e xs = NonFinite /\
  (forall x, value e [x] = x * x) /\ exists a, compute e xs = Ok a /\ ad_v a = 1 /\ ad_d a = [-2].
Proof.
  exists (EMix RPow (EVar 0) 2), [-1]. simpl.
  assert (H2 : forall x, real_pow x 2 = x * x) by (intros x; rewrite (real_pow_int x 2); simpl; ring).
  assert (HD : mix_dom RPow (-1) 2) by (right; exists 2%Z; split; [reflexivity|left; lra]).
  split; [split; [lia|exact HD]|]. split; [|split; [exact H2|]].
  - unfold AD_input. cbn. unfold AD_pow_scalar. cbn [ad_v ad_d]. cbn. unfold AD_pow, AD_log. cbn.
    rewrite fdiv_ok by lra. cbn. unfold std_log. rewrite gtb_false by lra. reflexivity.
  - change (exists a, mix_ad RPow (mkADT (-1) [1]) 2 = Ok a /\ ad_v a = 1 /\ ad_d a = [-2]).
    rewrite (mix_ad_ok RPow) by (split; [exact HD|intros _; left; lra]).
    eexists. split; [reflexivity|]. split; [simpl; rewrite H2; ring|]. simpl. f_equal.
    replace (2 - 1) with (IZR 1) by ring. rewrite real_pow_int. simpl. ring.
Qed.
