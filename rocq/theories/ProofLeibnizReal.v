(** The Leibniz recursion computes the mixed partial derivatives of a quotient. *)
From Coq Require Import Arith Lia List ZArith NArith Bool Ring Field Reals Lra.
From Verif Require Import Prelude Scalar Spec SpecSpline SpecReal Sums Coord ModelBasis ModelSpline ModelRational
  SpecRational ProofIndex ProofBasis ProofEval ProofElevate ProofArith ProofDeriv ProofDerivSpline
  ProofReal ProofLeibniz ProofRational4.
Import ListNotations.
Local Open Scope nat_scope.

(** ** Sums over multi-indices *)
Section Alg.
Context {T V : Type} {o : SOps T} {ov : VOps T V} {F : SField T} {M : VMod T V}.
Add Field Tfield : (@sf_th T o F).
Add Ring Ering : (@ext_ring T V o ov F M).
Ltac vring := to_ext; ring.

Fixpoint msum (a : list nat) (f : list nat -> V) : V :=
  match a with
  | [] => f []
  | x :: a' => vsum (S x) (fun j => msum a' (fun r => f (j :: r)))
  end.

Lemma msum_ext a : forall f g, (forall b, valid_index a b -> f b = g b) -> msum a f = msum a g.
Proof.
  induction a as [|x a IH]; intros f g H; cbn [msum]; [apply H; constructor|].
  apply vsum_ext. intros j Hj. apply IH. intros b Hb. apply H. constructor; auto. lia.
Qed.
Lemma msum_add a : forall f g, msum a (fun b => vadd (f b) (g b)) = vadd (msum a f) (msum a g).
Proof.
  induction a as [|x a IH]; intros f g; cbn [msum]; auto. rewrite <- vsum_add. apply vsum_ext. intros j Hj. apply IH.
Qed.
Lemma msum_scale a : forall (c : T) f, msum a (fun b => vscale c (f b)) = vscale c (msum a f).
Proof.
  induction a as [|x a IH]; intros c f; cbn [msum]; auto. rewrite <- vsum_scale. apply vsum_ext. intros j Hj. apply IH.
Qed.
Lemma msum_zero a : msum a (fun _ => v0) = v0.
Proof. induction a as [|x a IH]; cbn [msum]; auto. apply vsum_zero. auto. Qed.

Lemma msum_flat nd : forall g, vsum (n_coeffs nd) (fun j => g (index_of nd j)) = msum nd g.
Proof.
  induction nd as [|n nd IH]; intros g.
  - unfold n_coeffs. cbn [map prod fold_right vsum index_of msum]. vring.
  - rewrite n_coeffs_cons, vsum_mul, vsum_swap. cbn [msum]. apply vsum_ext. intros j Hj.
    rewrite <- IH. apply vsum_ext. intros q Hq. cbn [index_of].
    replace (j + S n * q) with (j + q * S n) by lia.
    rewrite Nat.mod_add, Nat.div_add, Nat.mod_small, Nat.div_small by lia. reflexivity.
Qed.
Lemma msum_subset nd : forall a f, valid_index nd a ->
  msum nd (fun b => if subset a b then f b else v0) = msum a f.
Proof.
  induction nd as [|n nd IH]; intros a f HV; inversion HV; subst; [reflexivity|].
  cbn [msum].
  match goal with |- _ = vsum (S ?y) _ => set (yy := y) in * end.
  replace (S n) with (S yy + (n - yy)) by (unfold yy; lia). rewrite vsum_app.
  rewrite (vsum_zero (n - yy)).
  - assert (EZ : forall u : V, vadd u v0 = u) by (intros; vring). rewrite EZ.
    apply vsum_ext. intros j Hj. rewrite <- (IH l' (fun r => f (j :: r)) H3). apply msum_ext. intros b Hb.
    cbn [subset]. rewrite (proj2 (Nat.leb_le j yy)) by lia. reflexivity.
  - intros j Hj. transitivity (msum nd (fun _ => v0)); [|apply msum_zero]. apply msum_ext. intros b Hb. cbn [subset].
    rewrite (proj2 (Nat.leb_gt (S yy + j) yy)) by lia. reflexivity.
Qed.

Definition isz (b : list nat) : bool := forallb (Nat.eqb 0) b.
Lemma isz_sum b : isz b = false -> 0 < list_sum b.
Proof.
  induction b as [|x b IH]; [discriminate|]. change (list_sum (x :: b)) with (x + list_sum b).
  unfold isz. cbn [forallb]. destruct x; cbn [Nat.eqb andb]; [|lia]. intros H. apply IH in H. lia.
Qed.
Lemma isz_repeat n : isz (repeat 0 n) = true.
Proof. induction n; auto. Qed.
Lemma isz_eq b : isz b = true -> b = repeat 0 (length b).
Proof. induction b as [|x b IH]; auto. unfold isz. cbn [forallb]. destruct x; [|discriminate]. intros H. simpl. f_equal. auto. Qed.
Lemma msum_isz a : forall f, msum a (fun b => if isz b then f b else v0) = f (repeat 0 (length a)).
Proof.
  induction a as [|x a IH]; intros f; cbn [msum length repeat]; auto.
  rewrite (vsum_single _ 0); [|lia|].
  - apply (IH (fun r => f (0 :: r))).
  - intros j Hj Hne. transitivity (msum a (fun _ => v0)); [|apply msum_zero]. apply msum_ext. intros b Hb. destruct j; [lia|]. reflexivity.
Qed.
Lemma msum_split a f : msum a f = vadd (f (repeat 0 (length a))) (msum a (fun b => if isz b then v0 else f b)).
Proof.
  rewrite <- (msum_isz a f), <- msum_add. apply msum_ext. intros b Hb. destruct (isz b); vring.
Qed.

(** One direction incremented. *)
Definition inc (a : list nat) (k : nat) : list nat := upd_list a k (S (nth k a 0)).
Lemma length_inc a k : length (inc a k) = length a.
Proof. unfold inc. apply length_upd. Qed.
Lemma nth_inc a k j : k < length a -> nth j (inc a k) 0 = if j =? k then S (nth k a 0) else nth j a 0.
Proof. intros H. unfold inc. rewrite nth_upd by auto. reflexivity. Qed.

Definition bterm (a : list nat) (f : list nat -> V) (b : list nat) : V := vscale (sofN (mbinom a b)) (f b).
Lemma msum_bterm_cons x a f : msum (x :: a) (bterm (x :: a) f) =
  vsum (S x) (fun j => vscale (sofN (binom x j)) (msum a (bterm a (fun r => f (j :: r))))).
Proof.
  cbn [msum]. apply vsum_ext. intros j Hj. rewrite <- msum_scale. apply msum_ext. intros b Hb.
  unfold bterm. cbn [mbinom]. rewrite sofN_mul, vm_mul. reflexivity.
Qed.

Lemma pascal_sum x (h : nat -> V) : vsum (S (S x)) (fun j => vscale (sofN (binom (S x) j)) (h j)) =
  vadd (vsum (S x) (fun j => vscale (sofN (binom x j)) (h j))) (vsum (S x) (fun j => vscale (sofN (binom x j)) (h (S j)))).
Proof.
  rewrite vsum_first.
  rewrite (vsum_ext (S x) (fun i => vscale (sofN (binom (S x) (S i))) (h (S i)))
    (fun i => vadd (vscale (sofN (binom x i)) (h (S i))) (vscale (sofN (binom x (S i))) (h (S i))))).
  2:{ intros i Hi. rewrite binom_SS, sofN_add. vring. }
  rewrite vsum_add.
  rewrite (vsum_first x (fun j => vscale (sofN (binom x j)) (h j))). rewrite !binom_n_0.
  assert (E : vsum (S x) (fun i => vscale (sofN (binom x (S i))) (h (S i))) = vsum x (fun i => vscale (sofN (binom x (S i))) (h (S i)))).
  { cbn [vsum]. rewrite (binom_gt x (S x)) by lia. rewrite sf_ofN0. vring. }
  rewrite E. set (p := vsum x _). set (q := vsum (S x) _). vring.
Qed.

Lemma msum_pascal : forall a k f, k < length a ->
  msum (inc a k) (bterm (inc a k) f) = vadd (msum a (bterm a f)) (msum a (bterm a (fun b => f (inc b k)))).
Proof.
  induction a as [|x a IH]; intros k f Hk; [simpl in Hk; lia|]. destruct k as [|k].
  - change (inc (x :: a) 0) with (S x :: a). rewrite !msum_bterm_cons.
    apply (pascal_sum x (fun j => msum a (bterm a (fun r => f (j :: r))))).
  - change (inc (x :: a) (S k)) with (x :: inc a k). rewrite !msum_bterm_cons. rewrite <- vsum_add.
    apply vsum_ext. intros j Hj. rewrite IH by (simpl in Hk; lia).
    change (fun r => f (inc (j :: r) (S k))) with (fun r => f (j :: inc r k)). vring.
Qed.

(** ** The relation solved by the recursion *)
Lemma leib_rel nd (w : list nat -> T) (A : list nat -> V) a :
  valid_index nd a -> w (repeat 0 (length nd)) <> s0 ->
  let D := fun b => leib mbinom nd (fun j => w (index_of nd j)) (sdiv s1 (w (repeat 0 (length nd))))
    (fun j => A (index_of nd j)) (position nd b) in
  msum a (bterm a (fun b => vscale (w b) (D (isub a b)))) = A a.
Proof.
  intros HV H0 D. set (W := fun j => w (index_of nd j)). set (inv := sdiv s1 (w (repeat 0 (length nd)))).
  set (AA := fun j => A (index_of nd j)). set (L := leib mbinom nd W inv AA).
  set (i := position nd a).
  assert (Hi : i < n_coeffs nd) by (apply position_lt; auto).
  assert (Ea : index_of nd i = a) by (apply index_of_position; auto).
  assert (EL : vsum (n_coeffs nd) (lterm mbinom nd W L i) = A a).
  { replace (n_coeffs nd) with (S i + (n_coeffs nd - S i)) by lia. rewrite vsum_app.
    rewrite (vsum_zero (n_coeffs nd - S i)).
    2:{ intros j Hj. unfold lterm. destruct (subset _ _) eqn:ES; auto.
        apply subset_valid in ES; [|now rewrite !length_index_of]. rewrite Ea in ES.
        destruct (position_isub nd a _ (valid_len _ _ HV) ES) as (_ & HP).
        rewrite position_index_of in HP by lia. fold i in HP. lia. }
    rewrite vsum_first. unfold lterm at 1. rewrite index_of_0, Ea.
    assert (ES : subset a (repeat 0 (length nd)) = true).
    { rewrite <- (valid_len _ _ HV). clear. induction a; auto. }
    rewrite ES. rewrite <- (valid_len _ _ HV) at 1. rewrite mbinom_0. rewrite Nat.sub_0_r.
    unfold L at 1. rewrite leib_eq. fold L. unfold AA. rewrite Ea. set (sm := vsum i _).
    unfold W at 1. rewrite index_of_0, sofN_1, <- vm_mul.
    replace (smul (smul s1 (w (repeat 0 (length nd)))) inv) with (s1 : T) by (unfold inv; field; auto).
    vring. }
  rewrite <- EL. rewrite <- (msum_subset nd a) by auto. rewrite <- msum_flat. apply vsum_ext. intros j Hj.
  unfold lterm. rewrite Ea. destruct (subset a (index_of nd j)) eqn:ES; auto.
  apply subset_valid in ES; [|rewrite length_index_of; symmetry; apply (valid_len _ _ HV)].
  unfold bterm. rewrite vm_mul. unfold D. fold W inv AA L. unfold W at 1. f_equal. f_equal. f_equal.
  destruct (position_isub nd a _ (valid_len _ _ HV) ES) as (-> & _).
  rewrite position_index_of by auto. reflexivity.
Qed.
End Alg.

(** ** Real analysis *)
Local Open Scope R_scope.

Lemma dlim_ext_loc (f g : R -> R) x l d : 0 < d -> (forall y, Rabs (y - x) < d -> f y = g y) ->
  derivable_pt_lim f x l -> derivable_pt_lim g x l.
Proof.
  intros Hd HE D eps He. destruct (D eps He) as (del & Hdel).
  assert (Hm : 0 < Rmin d del) by (apply Rmin_glb_lt; [auto|apply cond_pos]).
  exists (mkposreal _ Hm). intros h Hh Hlt. simpl in Hlt.
  rewrite <- !HE.
  - apply Hdel; auto. eapply Rlt_le_trans; [exact Hlt|apply Rmin_r].
  - rewrite Rminus_diag_eq, Rabs_R0; auto.
  - replace (x + h - x) with h by ring. eapply Rlt_le_trans; [exact Hlt|apply Rmin_l].
Qed.

Lemma dlim_nonzero (f : R -> R) x l : derivable_pt_lim f x l -> f x <> 0 ->
  exists d, 0 < d /\ forall y, Rabs (y - x) < d -> f y <> 0.
Proof.
  intros D H0. assert (C : continuity_pt f x).
  { apply derivable_continuous_pt. exists l. exact D. }
  destruct (C (Rabs (f x))) as (d & Hd & HC); [apply Rabs_pos_lt; auto|].
  exists d. split; auto. intros y Hy E. destruct (Req_dec y x) as [->|Hne]; [auto|].
  specialize (HC y). simpl in HC. unfold R_dist, D_x, no_cond in HC.
  assert (Hlt : Rabs (f y - f x) < Rabs (f x)) by (apply HC; repeat split; auto).
  rewrite E, Rminus_0_l, Rabs_Ropp in Hlt. lra.
Qed.

Lemma dlim_div f g x a b : g x <> 0 -> derivable_pt_lim f x a -> derivable_pt_lim g x b ->
  derivable_pt_lim (fun y => f y / g y) x ((a * g x - b * f x) / Rsqr (g x)).
Proof. intros. apply (derivable_pt_lim_div f g); auto. Qed.

Lemma dlim_msum a : forall (f : list nat -> R -> R) x (l : list nat -> R),
  (forall b, valid_index a b -> derivable_pt_lim (f b) x (l b)) ->
  derivable_pt_lim (fun y => msum (V := R) a (fun b => f b y)) x (msum (V := R) a l).
Proof.
  induction a as [|n a IH]; intros f x l H; cbn [msum]; [apply H; constructor|].
  apply (dlim_vsum (S n) (fun j y => msum (V := R) a (fun r => f (j :: r) y))). intros j Hj.
  apply (IH (fun r => f (j :: r))). intros b Hb. apply H. constructor; auto. lia.
Qed.

Lemma upd_at_same (xs : list R) k : upd_list xs k (nth k xs 0) = xs.
Proof. revert k; induction xs; intros [|k]; simpl; auto. f_equal; auto. Qed.

Section Quot.
Context (n : nat) (A W : list nat -> list R -> R).
Context (HA : forall a k xs, length a = n -> (k < n)%nat -> length xs = n ->
  derivable_pt_lim (fun y => A a (upd_list xs k y)) (nth k xs 0) (A (inc a k) xs)).
Context (HW : forall a k xs, length a = n -> (k < n)%nat -> length xs = n ->
  derivable_pt_lim (fun y => W a (upd_list xs k y)) (nth k xs 0) (W (inc a k) xs)).
Context (orders : list nat) (Ho : length orders = n).

Definition zero := repeat 0%nat n.
Definition QD (a : list nat) (xs : list R) : R :=
  leib (V := R) mbinom orders (fun j => W (index_of orders j) xs) (1 / W zero xs) (fun j => A (index_of orders j) xs)
    (position orders a).
Definition dom (xs : list R) : Prop := length xs = n /\ W zero xs <> 0.

Lemma QD_rel a xs : valid_index orders a -> dom xs ->
  msum (V := R) a (fun b => sofN (mbinom a b) * (W b xs * QD (isub a b) xs)) = A a xs.
Proof.
  intros HV (HX & H0). unfold QD, zero in *. rewrite <- Ho in *.
  exact (leib_rel (V := R) orders (fun b => W b xs) (fun b => A b xs) a HV H0).
Qed.

Lemma inc_isub a b k : (k < length a)%nat -> valid_index a b -> inc (isub a b) k = isub (inc a k) b.
Proof.
  intros Hk HV. pose proof (valid_len _ _ HV) as HL. apply (list_ext 0%nat).
  - rewrite length_inc, !length_isub by (rewrite ?length_inc; auto). now rewrite length_inc.
  - intros j Hj. rewrite length_inc, length_isub in Hj by auto.
    rewrite nth_inc by (rewrite length_isub; auto).
    unfold isub. rewrite !nth_map2_sub by (rewrite ?length_inc; auto).
    rewrite nth_inc by auto. pose proof (valid_nth_le a b k HV).
    destruct (Nat.eqb_spec j k) as [->|]; auto. lia.
Qed.
Lemma isub_inc a b k : (k < length a)%nat -> valid_index a b -> isub (inc a k) (inc b k) = isub a b.
Proof.
  intros Hk HV. pose proof (valid_len _ _ HV) as HL. apply (list_ext 0%nat).
  - rewrite !length_isub by (rewrite ?length_inc; auto). now rewrite length_inc.
  - intros j Hj. rewrite length_isub in Hj by (rewrite !length_inc; auto). rewrite length_inc in Hj.
    unfold isub. rewrite !nth_map2_sub by (rewrite ?length_inc; auto).
    rewrite !nth_inc by lia. destruct (Nat.eqb_spec j k) as [->|]; auto.
Qed.
Lemma isub_0 a : isub a (repeat 0%nat (length a)) = a.
Proof. induction a as [|x a IHa]; auto. cbn [length repeat isub map2]. fold (isub a (repeat 0%nat (length a))). rewrite IHa, Nat.sub_0_r. reflexivity. Qed.
Lemma sum_isub a b : valid_index a b -> (list_sum (isub a b) + list_sum b = list_sum a)%nat.
Proof.
  induction 1; auto. cbn [isub map2]. fold (isub l l').
  change (list_sum (?h :: ?t)) with (h + list_sum t)%nat. 
  change (x - y + list_sum (isub l l') + (y + list_sum l') = x + list_sum l)%nat. lia.
Qed.
Lemma valid_inc a k : valid_index orders a -> (k < n)%nat -> (nth k a 0 < nth k orders 0)%nat -> valid_index orders (inc a k).
Proof. intros HV Hk Hlt. unfold inc. apply valid_upd; auto. lia. Qed.

Definition rest (a : list nat) (xs : list R) : R :=
  msum (V := R) a (fun b => if isz b then 0 else sofN (mbinom a b) * (W b xs * QD (isub a b) xs)).
Lemma QD_eq a xs : valid_index orders a -> dom xs -> QD a xs = (A a xs - rest a xs) / W zero xs.
Proof.
  intros HV HD. pose proof (QD_rel a xs HV HD) as E.
  rewrite (msum_split (V := R)) in E. fold (rest a xs) in E. rewrite mbinom_0, isub_0 in E.
  rewrite (valid_len _ _ HV), Ho in E. fold zero in E.
  change (sofN 1 * (W zero xs * QD a xs) + rest a xs = A a xs) in E.
  pose proof (sofN_1 (T := R)) as E1. change (sofN 1 = 1 :> R) in E1. rewrite E1 in E.
  destruct HD as (_ & H0). rewrite <- E. field. auto.
Qed.

Lemma QD_dlim : forall m a, list_sum a = m -> forall k xs, valid_index orders a -> (k < n)%nat ->
  (nth k a 0 < nth k orders 0)%nat -> dom xs ->
  derivable_pt_lim (fun y => QD a (upd_list xs k y)) (nth k xs 0) (QD (inc a k) xs).
Proof.
  induction m as [m IH] using lt_wf_ind. intros a Hm k xs HV Hk Hlt HD.
  pose proof (valid_len _ _ HV) as HLa. pose proof HD as (HX & H0).
  pose proof (HW zero k xs ltac:(unfold zero; apply repeat_length) Hk HX) as DW.
  set (w0 := fun y => W zero (upd_list xs k y)) in *.
  assert (Hw0 : w0 (nth k xs 0) = W zero xs) by (unfold w0; now rewrite upd_at_same).
  destruct (dlim_nonzero w0 _ _ DW) as (d & Hd & Hnz); [rewrite Hw0; auto|].
  assert (HP : valid_index orders (inc a k)) by (apply valid_inc; auto).
  set (R' := msum (V := R) a (fun b => if isz b then 0 else sofN (mbinom a b) *
    (W (inc b k) xs * QD (isub a b) xs + W b xs * QD (isub (inc a k) b) xs))).
  assert (Dr : derivable_pt_lim (fun y => rest a (upd_list xs k y)) (nth k xs 0) R').
  { unfold rest, R'. apply (dlim_msum a (fun b y => if isz b then 0 else sofN (mbinom a b) *
      (W b (upd_list xs k y) * QD (isub a b) (upd_list xs k y)))).
    intros b Hb. destruct (isz b) eqn:Ez; [apply dlim_const|]. apply dlim_scal.
    pose proof (valid_len _ _ Hb) as HLb.
    assert (Dq : derivable_pt_lim (fun y => QD (isub a b) (upd_list xs k y)) (nth k xs 0) (QD (inc (isub a b) k) xs)).
    { apply (IH (list_sum (isub a b))); auto.
      - pose proof (sum_isub a b Hb). pose proof (isz_sum b Ez). lia.
      - eapply valid_trans; [exact HV|]. apply valid_isub. auto.
      - unfold isub. rewrite nth_map2_sub by lia. lia. }
    rewrite inc_isub in Dq by (auto; lia).
    pose proof (HW b k xs ltac:(lia) Hk HX) as Db.
    eapply dlim_ext; [reflexivity| |apply (dlim_mult _ _ _ _ _ Db Dq)].
    cbv beta. rewrite upd_at_same. ring. }
  pose proof (HA a k xs ltac:(lia) Hk HX) as DA.
  pose proof (dlim_minus _ _ _ _ _ DA Dr) as DN.
  assert (HQ : derivable_pt_lim (fun y => (A a (upd_list xs k y) - rest a (upd_list xs k y)) / w0 y) (nth k xs 0)
    (((A (inc a k) xs - R') * w0 (nth k xs 0) - W (inc zero k) xs * (A a (upd_list xs k (nth k xs 0)) - rest a (upd_list xs k (nth k xs 0))))
      / Rsqr (w0 (nth k xs 0)))).
  { apply (dlim_div (fun y => A a (upd_list xs k y) - rest a (upd_list xs k y)) w0); auto. rewrite Hw0; auto. }
  apply (dlim_ext_loc _ (fun y => QD a (upd_list xs k y)) _ _ d Hd) in HQ.
  2:{ intros y Hy. symmetry. apply QD_eq; auto. split; [rewrite length_upd; auto|]. apply Hnz; auto. }
  rewrite Hw0, upd_at_same in HQ.
  eapply dlim_ext; [reflexivity| |exact HQ].
  (* the value of the derivative *)
  pose proof (QD_rel (inc a k) xs HP HD) as E.
  pose proof (msum_pascal (V := R) a k (fun b => W b xs * QD (isub (inc a k) b) xs) ltac:(lia)) as EP.
  unfold bterm in EP.
  change (msum (V := R) (inc a k) (fun b => sofN (mbinom (inc a k) b) * (W b xs * QD (isub (inc a k) b) xs)) =
    msum (V := R) a (fun b => sofN (mbinom a b) * (W b xs * QD (isub (inc a k) b) xs)) +
    msum (V := R) a (fun b => sofN (mbinom a b) * (W (inc b k) xs * QD (isub (inc a k) (inc b k)) xs))) in EP.
  rewrite EP in E. clear EP.
  rewrite (msum_ext (V := R) a (fun b => sofN (mbinom a b) * (W (inc b k) xs * QD (isub (inc a k) (inc b k)) xs))
    (fun b => sofN (mbinom a b) * (W (inc b k) xs * QD (isub a b) xs))) in E
    by (intros b Hb; rewrite isub_inc by (auto; lia); reflexivity).
  rewrite (msum_split (V := R) a (fun b => sofN (mbinom a b) * (W b xs * QD (isub (inc a k) b) xs))) in E.
  rewrite (msum_split (V := R) a (fun b => sofN (mbinom a b) * (W (inc b k) xs * QD (isub a b) xs))) in E.
  rewrite mbinom_0, isub_0 in E.
  assert (EI : isub (inc a k) (repeat 0%nat (length a)) = inc a k) by (rewrite <- (length_inc a k); apply isub_0).
  rewrite EI in E. rewrite HLa, Ho in E. fold zero in E.
  pose proof (sofN_1 (T := R)) as E1. change (sofN 1 = 1 :> R) in E1. rewrite E1 in E.
  set (S1 := msum (V := R) a (fun b => if isz b then v0 else sofN (mbinom a b) * (W b xs * QD (isub (inc a k) b) xs))) in E.
  set (S2 := msum (V := R) a (fun b => if isz b then v0 else sofN (mbinom a b) * (W (inc b k) xs * QD (isub a b) xs))) in E.
  assert (ER : R' = S1 + S2).
  { unfold R', S1, S2. pose proof (msum_add (V := R) a
      (fun b => if isz b then v0 else sofN (mbinom a b) * (W b xs * QD (isub (inc a k) b) xs))
      (fun b => if isz b then v0 else sofN (mbinom a b) * (W (inc b k) xs * QD (isub a b) xs))) as EA.
    etransitivity; [|exact EA]. apply msum_ext. intros b Hb. destruct (isz b); rsimpl; ring. }
  rewrite ER. rewrite (QD_eq a xs HV HD) in E.
  change (1 * (W zero xs * QD (inc a k) xs) + S1 + (1 * (W (inc zero k) xs * ((A a xs - rest a xs) / W zero xs)) + S2) =
    A (inc a k) xs) in E.
  rewrite <- E. unfold Rsqr. field. auto.
Qed.

(** Mixed derivatives of the quotient. *)
Lemma mixed_QD : forall dirs a b, valid_index orders a -> valid_index orders b ->
  Forall (fun k => (k < n)%nat) dirs ->
  (forall k, (k < n)%nat -> nth k b 0 = nth k a 0 + count_occ Nat.eq_dec dirs k)%nat ->
  mixed dom dirs (QD a) (QD b).
Proof.
  induction dirs as [|k dirs IH]; intros a b Ha Hb HF HC.
  - intros xs HX. f_equal. apply (list_ext 0%nat); [rewrite (valid_len _ _ Ha), (valid_len _ _ Hb); auto|].
    intros j Hj. rewrite (valid_len _ _ Ha) in Hj. rewrite HC by lia. simpl. lia.
  - inversion HF as [|? ? Hk HF']; subst.
    assert (Hlt : (nth k a 0 < nth k orders 0)%nat).
    { pose proof (HC k Hk) as E. cbn [count_occ] in E. destruct (Nat.eq_dec k k); [|congruence].
      pose proof (valid_nth_le _ _ k Hb). lia. }
    exists (QD (inc a k)). split.
    + intros xs HX. eapply QD_dlim; eauto.
    + apply IH; auto; [apply valid_inc; auto|]. intros j Hj. rewrite HC by auto.
      rewrite nth_inc by (pose proof (valid_len _ _ Ha); lia). cbn [count_occ].
      destruct (Nat.eqb_spec j k) as [->|Hne].
      * destruct (Nat.eq_dec k k); [lia|congruence].
      * destruct (Nat.eq_dec k j); [congruence|lia].
Qed.
Lemma QD_0 xs : dom xs -> QD zero xs = A zero xs / W zero xs.
Proof.
  intros HD. rewrite QD_eq; auto.
  2:{ unfold zero. rewrite <- Ho. clear. induction orders; constructor; auto. lia. }
  f_equal. replace (rest zero xs) with 0; [ring|]. unfold rest.
  pose proof (msum_zero (V := R) zero) as E. rewrite <- E at 1. apply msum_ext. intros b Hb.
  destruct (isz b) eqn:Ez; auto. apply isz_sum in Ez. pose proof (valid_sum _ _ Hb) as Hs.
  assert (EZ : list_sum zero = 0%nat) by (unfold zero; clear; induction n; auto). lia.
Qed.
End Quot.
