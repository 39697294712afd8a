(** Elementary derivatives and closed forms of the AlgoDiffType operations. *)
From Coq Require Import Arith Lia List Bool ZArith Reals Lra.
From Verif Require Import Prelude ModelAD SpecAD.
Import ListNotations.
Local Open Scope R_scope.

(** ** Decisions *)
Lemma gtb_true x y : y < x -> gtb x y = true.
Proof. intros H. unfold gtb. destruct (Rlt_dec y x); auto; contradiction. Qed.
Lemma gtb_false x y : ~ y < x -> gtb x y = false.
Proof. intros H. unfold gtb. destruct (Rlt_dec y x); auto; contradiction. Qed.
Lemma geb_true x y : y <= x -> geb x y = true.
Proof. intros H. unfold geb. destruct (Rle_dec y x); auto; contradiction. Qed.
Lemma is_zero_false x : x <> 0 -> is_zero x = false.
Proof. intros H. unfold is_zero. destruct (Req_EM_T x 0); auto; contradiction. Qed.
Lemma is_zero_true : is_zero 0 = true.
Proof. unfold is_zero. destruct (Req_EM_T 0 0); auto; contradiction. Qed.
Lemma fdiv_ok x y : y <> 0 -> fdiv x y = Ok (x / y).
Proof. intros H. unfold fdiv. now rewrite is_zero_false. Qed.
Lemma fdiv_0 x : fdiv x 0 = NonFinite.
Proof. unfold fdiv. now rewrite is_zero_true. Qed.

(** ** Derivatives *)
Lemma dl_eq f x l l' : l = l' -> derivable_pt_lim f x l -> derivable_pt_lim f x l'.
Proof. now intros ->. Qed.
Lemma dl_ext (f g : R -> R) x l : (forall y, f y = g y) -> derivable_pt_lim f x l -> derivable_pt_lim g x l.
Proof.
  intros HE H eps He. destruct (H eps He) as (d & Hd). exists d. intros h Hh Hl. rewrite <- !HE. apply Hd; auto.
Qed.
Lemma dl_loc (f g : R -> R) x l r : 0 < r -> (forall y, Rabs (y - x) < r -> f y = g y) ->
  derivable_pt_lim f x l -> derivable_pt_lim g x l.
Proof.
  intros Hr HE D eps He. destruct (D eps He) as (del & Hdel).
  assert (Hm : 0 < Rmin r del) by (apply Rmin_glb_lt; [auto|apply cond_pos]).
  exists (mkposreal _ Hm). intros h Hh Hlt. simpl in Hlt.
  rewrite <- (HE (x + h)), <- (HE x).
  - apply Hdel; auto. eapply Rlt_le_trans; [exact Hlt|apply Rmin_r].
  - replace (x - x) with 0 by ring. rewrite Rabs_R0. auto.
  - replace (x + h - x) with h by ring. eapply Rlt_le_trans; [exact Hlt|apply Rmin_l].
Qed.
Lemma dl_comp (f g : R -> R) x a b : derivable_pt_lim f x a -> derivable_pt_lim g (f x) b ->
  derivable_pt_lim (fun y => g (f y)) x (b * a).
Proof. intros. apply (derivable_pt_lim_comp f g); auto. Qed.
Lemma dl_plus f g x a b : derivable_pt_lim f x a -> derivable_pt_lim g x b -> derivable_pt_lim (fun y => f y + g y) x (a + b).
Proof. intros. apply (derivable_pt_lim_plus f g); auto. Qed.
Lemma dl_minus f g x a b : derivable_pt_lim f x a -> derivable_pt_lim g x b -> derivable_pt_lim (fun y => f y - g y) x (a - b).
Proof. intros. apply (derivable_pt_lim_minus f g); auto. Qed.
Lemma dl_mult f g x a b : derivable_pt_lim f x a -> derivable_pt_lim g x b ->
  derivable_pt_lim (fun y => f y * g y) x (a * g x + f x * b).
Proof. intros. apply (derivable_pt_lim_mult f g); auto. Qed.
Lemma dl_div f g x a b : g x <> 0 -> derivable_pt_lim f x a -> derivable_pt_lim g x b ->
  derivable_pt_lim (fun y => f y / g y) x ((a * g x - b * f x) / Rsqr (g x)).
Proof. intros. apply (derivable_pt_lim_div f g); auto. Qed.
Lemma dl_const c x : derivable_pt_lim (fun _ => c) x 0.
Proof. apply derivable_pt_lim_const. Qed.
Lemma dl_id x : derivable_pt_lim (fun y => y) x 1.
Proof. apply derivable_pt_lim_id. Qed.
Lemma dl_opp f x a : derivable_pt_lim f x a -> derivable_pt_lim (fun y => - f y) x (- a).
Proof. intros. apply (derivable_pt_lim_opp f); auto. Qed.

Lemma ln10_pos : 0 < ln 10.
Proof. rewrite <- ln_1. apply ln_increasing; lra. Qed.

(** Integral powers. *)
Lemma Int_part_IZR k : Int_part (IZR k) = k.
Proof.
  destruct (base_Int_part (IZR k)) as (H1 & H2). apply le_IZR in H1.
  assert (H3 : IZR k < IZR (Int_part (IZR k) + 1)) by (rewrite plus_IZR; lra). apply lt_IZR in H3. lia.
Qed.
Lemma real_pow_pos x p : 0 < x -> real_pow x p = Rpower x p.
Proof. intros H. unfold real_pow. destruct (Rlt_dec 0 x); [reflexivity|contradiction]. Qed.
Lemma real_pow_int x k : real_pow x (IZR k) = powerRZ x k.
Proof.
  destruct (Rlt_dec 0 x) as [H|H]; [rewrite real_pow_pos, powerRZ_Rpower by auto; reflexivity|].
  unfold real_pow. destruct (Rlt_dec 0 x); [contradiction|]. rewrite Int_part_IZR.
  destruct (Req_EM_T (IZR k) (IZR k)); [reflexivity|contradiction].
Qed.
Lemma powerRZ_0_pos k : (0 < k)%Z -> powerRZ 0 k = 0.
Proof. intros H. destruct k; try lia. simpl. apply pow_i. lia. Qed.

Definition pow_dom (x p : R) : Prop := 0 < x \/ exists k : Z, p = IZR k /\ (x <> 0 \/ (0 <= k)%Z).
Lemma std_pow_ok x p : pow_dom x p -> std_pow x p = Ok (real_pow x p).
Proof.
  intros HD. unfold std_pow. destruct (Rlt_dec 0 x) as [Hx|Hx].
  - rewrite gtb_true, real_pow_pos by auto. reflexivity.
  - rewrite gtb_false by auto. destruct HD as [|(k & -> & HD)]; [contradiction|]. rewrite real_pow_int.
    destruct (Req_EM_T x 0) as [->|Hx0].
    + rewrite is_zero_true. destruct HD as [HD|HD]; [contradiction|].
      destruct (Z.eq_dec k 0) as [->|Hk]; [rewrite is_zero_true; reflexivity|].
      assert (0 < IZR k) by (apply (IZR_lt 0); lia). rewrite is_zero_false by lra. rewrite gtb_true by lra.
      rewrite powerRZ_0_pos by lia. reflexivity.
    + rewrite is_zero_false by auto. rewrite Int_part_IZR. unfold eqb.
      destruct (Req_EM_T (IZR k) (IZR k)); [reflexivity|contradiction].
Qed.

Lemma dl_powerRZ x k : x <> 0 \/ (1 <= k)%Z -> derivable_pt_lim (fun y => powerRZ y k) x (IZR k * powerRZ x (k - 1)).
Proof.
  intros H. destruct k as [|p|p].
  - simpl. eapply dl_eq; [|apply dl_const]. ring.
  - simpl (powerRZ _ (Z.pos p)). eapply dl_eq; [|apply derivable_pt_lim_pow].
    rewrite INR_IZR_INZ, positive_nat_Z. f_equal.
    assert (Hz : (Z.pos p - 1)%Z = Z.of_nat (Init.Nat.pred (Pos.to_nat p))) by lia. rewrite Hz, <- pow_powerRZ. reflexivity.
  - destruct H as [H|H]; [|lia]. simpl (powerRZ _ (Z.neg p)). set (n := Pos.to_nat p).
    assert (Hn : (0 < n)%nat) by apply Pos2Nat.is_pos.
    assert (Hx : x ^ n <> 0) by (apply pow_nonzero; auto).
    apply (dl_ext (fun y => 1 / y ^ n)); [intros y; unfold Rdiv; ring|].
    eapply dl_eq; [|apply dl_div; [exact Hx|apply dl_const|apply derivable_pt_lim_pow]].
    assert (Hz : powerRZ x (Z.neg p - 1) = / (x * x ^ n)).
    { replace (Z.neg p - 1)%Z with (Z.neg (Pos.succ p)) by lia. simpl. rewrite Pos2Nat.inj_succ. reflexivity. }
    rewrite Hz. replace (IZR (Z.neg p)) with (- INR n) by (rewrite INR_IZR_INZ; unfold n; rewrite positive_nat_Z; rewrite <- opp_IZR; reflexivity).
    destruct n as [|m]; [lia|]. simpl (Init.Nat.pred (S m)). simpl in Hx. unfold Rsqr. simpl pow. field.
    split; auto. intros E. apply Hx. rewrite E. ring.
Qed.

Lemma dl_real_pow x p : 0 < x \/ (exists k : Z, p = IZR k /\ (x <> 0 \/ (1 <= k)%Z)) ->
  derivable_pt_lim (fun y => real_pow y p) x (p * real_pow x (p - 1)).
Proof.
  intros [H|(k & -> & H)].
  - apply (dl_loc (fun y => Rpower y p) _ x _ x H).
    + intros y Hy. rewrite real_pow_pos; auto. apply Rabs_def2 in Hy. lra.
    + rewrite real_pow_pos by auto. apply derivable_pt_lim_power. auto.
  - replace (IZR k - 1) with (IZR (k - 1)) by (rewrite minus_IZR; ring). rewrite real_pow_int.
    apply (dl_ext (fun y => powerRZ y k)); [intros y; symmetry; apply real_pow_int|]. apply dl_powerRZ. auto.
Qed.
Lemma real_pow_step x p : 0 < x \/ (exists k : Z, p = IZR k /\ (x <> 0 \/ (1 <= k)%Z)) ->
  x * real_pow x (p - 1) = real_pow x p.
Proof.
  intros [H|(k & -> & H)].
  - rewrite !real_pow_pos by auto. rewrite <- (Rpower_1 x) at 1 by auto. rewrite <- Rpower_plus. f_equal. ring.
  - replace (IZR k - 1) with (IZR (k - 1)) by (rewrite minus_IZR; ring). rewrite !real_pow_int.
    destruct (Req_EM_T x 0) as [->|Hx].
    + destruct H as [H|H]; [contradiction|]. rewrite (powerRZ_0_pos k) by lia. ring.
    + rewrite <- (powerRZ_1 x) at 1. rewrite <- powerRZ_add by auto. f_equal. lia.
Qed.

Definition un_deriv (u : unary) (x : R) : R :=
  match u with
  | UNeg => -1 | UExp => exp x | ULog => 1 / x | ULog10 => 1 / (x * ln 10) | USqrt => (/ 2) / sqrt x
  | UAbs => if Rlt_dec 0 x then 1 else -1
  | USin => cos x | UCos => - sin x | UTan => (1 / cos x) * (1 / cos x)
  | UAsin => 1 / sqrt (1 - x * x) | UAcos => (-1) / sqrt (1 - x * x) | UAtan => 1 / (1 + x * x)
  end.
Lemma un_dlim u x : un_dom u x -> derivable_pt_lim (un_value u) x (un_deriv u x).
Proof.
  destruct u; simpl; intros H.
  - apply (dl_opp (fun y => y)). apply dl_id.
  - apply derivable_pt_lim_exp.
  - eapply dl_eq; [|apply derivable_pt_lim_ln; auto]. field. lra.
  - pose proof ln10_pos. eapply dl_eq; [|apply (dl_div ln (fun _ => ln 10)); [lra|apply derivable_pt_lim_ln; auto|apply dl_const]].
    unfold Rsqr. field. split; lra.
  - eapply dl_eq; [|apply derivable_pt_lim_sqrt; auto]. assert (sqrt x <> 0) by (apply Rgt_not_eq, sqrt_lt_R0; auto). field. auto.
  - destruct (Rlt_dec 0 x); [apply Rabs_derive_1; auto|apply Rabs_derive_2; lra].
  - apply derivable_pt_lim_sin.
  - apply derivable_pt_lim_cos.
  - apply (dl_ext (fun y => sin y / cos y)); [reflexivity|].
    eapply dl_eq; [|apply (dl_div sin cos); [exact H|apply derivable_pt_lim_sin|apply derivable_pt_lim_cos]].
    replace (cos x * cos x - - sin x * sin x) with 1 by (rewrite <- (sin2_cos2 x); unfold Rsqr; ring).
    unfold Rsqr. field. auto.
  - pose proof (derive_pt_asin x H) as D. apply derive_pt_eq_1 in D. exact D.
  - pose proof (derive_pt_acos x H) as D. apply derive_pt_eq_1 in D. exact D.
  - eapply dl_eq; [|apply derivable_pt_lim_atan]. unfold Rdiv. rewrite Rmult_1_l. f_equal. ring.
Qed.

Definition mix_deriv (m : mixed_op) (x s : R) : R :=
  match m with
  | RAdd | RSub | LAdd => 1 | LSub => -1 | RMul | LMul => s | RDiv => 1 / s
  | RPow => s * real_pow x (s - 1)
  | LDiv => - s / (x * x)
  end.
(** The domain without 0^0. *)
Definition mix_dom' (m : mixed_op) (x s : R) : Prop := mix_dom m x s /\ (m = RPow -> x <> 0 \/ s <> 0).
Lemma pow_dom' x s : mix_dom' RPow x s -> 0 < x \/ (exists k : Z, s = IZR k /\ (x <> 0 \/ (1 <= k)%Z)).
Proof.
  intros ([H|(k & -> & H)] & H0); [left; auto|]. right. exists k. split; auto. specialize (H0 eq_refl).
  destruct H as [H|H]; [auto|]. destruct H0 as [H0|H0]; [auto|]. right.
  destruct (Z.eq_dec k 0) as [->|]; [contradiction|lia].
Qed.
Lemma mix_dlim m x s : mix_dom' m x s -> derivable_pt_lim (fun y => mix_value m y s) x (mix_deriv m x s).
Proof.
  intros HD. destruct m; simpl.
  - eapply dl_eq; [|apply (dl_plus (fun y => y) (fun _ => s)); [apply dl_id|apply dl_const]]. ring.
  - eapply dl_eq; [|apply (dl_minus (fun y => y) (fun _ => s)); [apply dl_id|apply dl_const]]. ring.
  - eapply dl_eq; [|apply (dl_mult (fun y => y) (fun _ => s)); [apply dl_id|apply dl_const]]. ring.
  - destruct HD as (HD & _). simpl in HD. eapply dl_eq; [|apply (dl_div (fun y => y) (fun _ => s)); [exact HD|apply dl_id|apply dl_const]].
    unfold Rsqr. field. auto.
  - apply dl_real_pow. apply pow_dom'. auto.
  - eapply dl_eq; [|apply (dl_plus (fun _ => s) (fun y => y)); [apply dl_const|apply dl_id]]. ring.
  - eapply dl_eq; [|apply (dl_minus (fun _ => s) (fun y => y)); [apply dl_const|apply dl_id]]. ring.
  - eapply dl_eq; [|apply (dl_mult (fun _ => s) (fun y => y)); [apply dl_const|apply dl_id]]. ring.
  - destruct HD as (HD & _). simpl in HD. eapply dl_eq; [|apply (dl_div (fun _ => s) (fun y => y)); [exact HD|apply dl_const|apply dl_id]].
    unfold Rsqr. field. auto.
Qed.

(** ** Closed forms *)
Section Each.
Context {S : Type}.
Lemma some_or_nil (d : list S) : d = [] \/ exists z, In z d.
Proof. destruct d as [|z d]; [auto|]. right. exists z. simpl. auto. Qed.
Lemma each_ok {os : ADScalar S} (f : S -> res S) (g : S -> S) d : (forall x, f x = Ok (g x)) -> each f d = Ok (map g d).
Proof.
  intros H. unfold each.
  edestruct (for_up_inv (fun i e => length e = length d /\ forall (z : S) k, (k < length d)%nat ->
    nth k e z = if (k <? i)%nat then g (nth k d z) else nth k d z)) as (e & E & HL & HN).
  3:{ rewrite E. f_equal. destruct (some_or_nil d) as [->|(z & _)]; [destruct e; [reflexivity|simpl in HL; lia]|].
      apply (list_ext z); [rewrite map_length; auto|]. intros k Hk. rewrite HN by lia.
      rewrite (proj2 (Nat.ltb_lt _ _)) by (simpl; lia).
      rewrite (nth_indep (map g d) z (g z)) by (rewrite map_length; lia). now rewrite map_nth. }
  - split; auto.
  - intros i e Hi (HL & HN). cbv beta. destruct (some_or_nil d) as [->|(z & _)]; [simpl in Hi; lia|].
    rewrite (get_ok z) by lia. cbn [bind]. rewrite H. cbn [bind]. rewrite set_ok by lia. eexists. split; [reflexivity|].
    split; [rewrite length_upd; auto|]. intros y k Hk. rewrite nth_upd by lia. rewrite !HN by lia.
    rewrite (proj2 (Nat.ltb_ge i i)) by lia.
    destruct (Nat.eqb_spec k i) as [He|Hne], (Nat.ltb_spec k i), (Nat.ltb_spec k (Datatypes.S i)); try lia; auto; subst k.
    rewrite (nth_indep d y z) by lia. reflexivity.
Qed.
Lemma each2_ok {os : ADScalar S} (f : S -> S -> res S) (g : S -> S -> S) d e : (forall x z, f x z = Ok (g x z)) -> length d = length e ->
  exists r, each2 f d e = Ok r /\ length r = length d /\
    forall z k, (k < length d)%nat -> nth k r z = g (nth k d z) (nth k e z).
Proof.
  intros H HLe. unfold each2.
  edestruct (for_up_inv (fun i r => length r = length d /\ forall (z : S) k, (k < length d)%nat ->
    nth k r z = if (k <? i)%nat then g (nth k d z) (nth k e z) else nth k d z)) as (r & E & HL & HN).
  3:{ rewrite E. exists r. split; auto. split; auto. intros z k Hk. rewrite HN by lia. rewrite (proj2 (Nat.ltb_lt _ _)) by (simpl; lia). auto. }
  - split; auto.
  - intros i r Hi (HL & HN). cbv beta. destruct (some_or_nil d) as [->|(z & _)]; [simpl in Hi; lia|].
    rewrite (get_ok z) by lia. cbn [bind]. rewrite (get_ok z) by lia. cbn [bind]. rewrite H. cbn [bind]. rewrite set_ok by lia.
    eexists. split; [reflexivity|].
    split; [rewrite length_upd; auto|]. intros y k Hk. rewrite nth_upd by lia. rewrite !HN by lia.
    rewrite (proj2 (Nat.ltb_ge i i)) by lia.
    destruct (Nat.eqb_spec k i) as [He|Hne], (Nat.ltb_spec k i), (Nat.ltb_spec k (Datatypes.S i)); try lia; auto; subst k.
    rewrite (nth_indep d y z), (nth_indep e y z) by lia. reflexivity.
Qed.
End Each.

Lemma adt_eq {S} (v v' : S) d d' : v = v' -> d = d' -> mkADT v d = mkADT v' d'.
Proof. now intros -> ->. Qed.
Ltac step := cbn [bind a_mul a_add a_sub a_neg a_div a_div_l a_sub_l a_sub_r a_add_l a_mul_r a_lit a_exp a_log a_log10
  a_sqrt a_pow a_sin a_cos a_tan a_asin a_acos a_atan a_arith a_gt_r ADScalar_R].
Ltac ad_map g := rewrite (each_ok _ g) by reflexivity; step.

Lemma un_ad_ok u v d : un_dom u v ->
  un_ad u (mkADT v d) = Ok (mkADT (un_value u v) (map (fun x => x * un_deriv u v) d)).
Proof.
  intros H. assert (HM : forall g : R -> R, (forall x, g x = x * un_deriv u v) -> map g d = map (fun x => x * un_deriv u v) d)
    by (intros; apply map_ext; auto).
  destruct u; simpl un_ad; simpl un_dom in H.
  - unfold AD_neg. cbn [ad_v ad_d]. step. ad_map Ropp. do 2 f_equal. apply HM. intros x. simpl. ring.
  - unfold AD_exp, AD_mul_scalar. cbn [ad_v ad_d]. step. cbn [ad_v ad_d]. ad_map (fun x => x * exp v). do 2 f_equal. simpl. ring.
  - unfold AD_log. cbn [ad_v ad_d]. step. rewrite fdiv_ok by lra. step. unfold std_log. rewrite gtb_true by auto. step.
    ad_map (fun x => x * (1 / v)). reflexivity.
  - unfold AD_log10. cbn [ad_v ad_d]. step. pose proof ln10_pos.
    rewrite fdiv_ok by (apply Rmult_integral_contrapositive; split; lra). step.
    unfold std_log10. rewrite gtb_true by auto. step. ad_map (fun x => x * (1 / (v * ln 10))). reflexivity.
  - unfold AD_sqrt. cbn [ad_v ad_d]. step. unfold std_sqrt. rewrite geb_true by lra. step.
    rewrite fdiv_ok by (apply Rgt_not_eq, sqrt_lt_R0; auto). step. ad_map (fun x => x * (/ 2 / sqrt v)). reflexivity.
  - unfold AD_abs. cbn [ad_v ad_d]. step. simpl un_value. simpl un_deriv in *. destruct (Rlt_dec 0 v) as [Hp|Hp].
    + rewrite gtb_true by auto. do 2 f_equal; [rewrite Rabs_right; lra|].
      rewrite <- (HM (fun x => x)); [now rewrite map_id|]. intros x. ring.
    + rewrite gtb_false by auto. unfold AD_neg. cbn [ad_v ad_d]. step. ad_map Ropp. do 2 f_equal.
      * rewrite Rabs_left; lra.
      * apply HM. intros x. ring.
  - unfold AD_sin. cbn [ad_v ad_d]. step. ad_map (fun x => x * cos v). reflexivity.
  - unfold AD_cos. cbn [ad_v ad_d]. step. ad_map (fun x => x * - sin v). reflexivity.
  - unfold AD_tan. cbn [ad_v ad_d]. step. rewrite fdiv_ok by auto. step. unfold std_tan. rewrite is_zero_false by auto. step.
    ad_map (fun x => x * ((1 / cos v) * (1 / cos v))). reflexivity.
  - assert (Hs : 0 < 1 - v * v) by nra.
    unfold AD_asin. cbn [ad_v ad_d]. step. unfold std_sqrt. rewrite geb_true by lra. step.
    rewrite fdiv_ok by (apply Rgt_not_eq, sqrt_lt_R0; auto). step. unfold std_asin. rewrite geb_true by (apply Rabs_le; lra). step.
    ad_map (fun x => x * (1 / sqrt (1 - v * v))). reflexivity.
  - assert (Hs : 0 < 1 - v * v) by nra.
    unfold AD_acos. cbn [ad_v ad_d]. step. unfold std_sqrt. rewrite geb_true by lra. step.
    rewrite fdiv_ok by (apply Rgt_not_eq, sqrt_lt_R0; auto). step. unfold std_acos. rewrite geb_true by (apply Rabs_le; lra). step.
    ad_map (fun x => x * (-1 / sqrt (1 - v * v))). reflexivity.
  - unfold AD_atan. cbn [ad_v ad_d]. step. rewrite fdiv_ok by nra. step. ad_map (fun x => x * (1 / (1 + v * v))). reflexivity.
Qed.

Lemma mix_ad_ok m v d s : mix_dom' m v s ->
  mix_ad m (mkADT v d) s = Ok (mkADT (mix_value m v s) (map (fun x => x * mix_deriv m v s) d)).
Proof.
  intros H. assert (HM : forall g : R -> R, (forall x, g x = x * mix_deriv m v s) -> map g d = map (fun x => x * mix_deriv m v s) d)
    by (intros; apply map_ext; auto).
  assert (HI : mix_deriv m v s = 1 -> d = map (fun x => x * mix_deriv m v s) d).
  { intros E. rewrite <- (HM (fun x => x)); [now rewrite map_id|]. intros x. rewrite E. ring. }
  destruct m; simpl mix_ad.
  - unfold AD_add_scalar. cbn [ad_v ad_d]. step. do 2 f_equal. apply HI. reflexivity.
  - unfold AD_sub_scalar. cbn [ad_v ad_d]. step. do 2 f_equal. apply HI. reflexivity.
  - unfold AD_mul_scalar. cbn [ad_v ad_d]. step. ad_map (fun x => x * s). reflexivity.
  - destruct H as (H & _). simpl in H. unfold AD_div_scalar. cbn [ad_v ad_d]. step. rewrite fdiv_ok by auto. step.
    ad_map (fun x => x * (1 / s)). do 2 f_equal. simpl. field. auto.
  - pose proof (pow_dom' v s H) as HP. unfold AD_pow_scalar. cbn [ad_v ad_d]. step.
    rewrite std_pow_ok.
    + step. ad_map (fun x => x * (s * real_pow v (s - 1))). do 2 f_equal. simpl. apply real_pow_step. auto.
    + destruct HP as [HP|(k & -> & HP)]; [left; auto|]. right. exists (k - 1)%Z. split; [rewrite minus_IZR; ring|].
      destruct HP; [left; auto|right; lia].
  - unfold scalar_add, AD_add_scalar. cbn [ad_v ad_d]. step. do 2 f_equal; [simpl; ring|apply HI; reflexivity].
  - unfold scalar_sub, AD_neg, AD_add_scalar. cbn [ad_v ad_d]. step. ad_map Ropp. cbn [ad_v ad_d].
    do 2 f_equal; [simpl; ring|]. apply HM. intros x. simpl. ring.
  - unfold scalar_mul, AD_mul_scalar. cbn [ad_v ad_d]. step. ad_map (fun x => x * s). do 2 f_equal. simpl. ring.
  - destruct H as (H & _). simpl in H. unfold scalar_div. cbn [ad_v ad_d]. step.
    rewrite fdiv_ok by (apply Rmult_integral_contrapositive; auto). step.
    ad_map (fun x => x * (- s / (v * v))). do 2 f_equal. simpl. field. auto.
Qed.
