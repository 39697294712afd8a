(** Lemmas for the 64-bit model of the basis functions, the forward evaluation and the evaluated
    derivatives (ModelSize4.v). *)
From Coq Require Import Arith Lia List ZArith NArith Bool.
From Verif Require Import Prelude Scalar ModelBasis ModelPoint ModelSpline ModelRational Spec SpecRational ProofIndex ProofBasis ProofLeibniz ProofRational ModelSize ProofSize ModelSize2 ProofSize2 ModelSize4 ClaimsSize2.
Import ListNotations.

Definition sizes_ {A} (fs : list (list A)) : nat := prod (map (@length A) fs).
Lemma sizes_app {A} (a b : list (list A)) : sizes_ (a ++ b) = sizes_ a * sizes_ b.
Proof. unfold sizes_. rewrite map_app. induction (map (@length A) a) as [|x l IH]; cbn [app]; [cbn; lia|]. unfold prod in *. cbn [fold_right]. rewrite IH. lia. Qed.
Lemma sizes_S {A} (fs : list (list A)) k : k < length fs -> sizes_ (firstn (S k) fs) = sizes_ (firstn k fs) * length (nth k fs []).
Proof. intros H. rewrite (firstn_S_nth []) by auto. rewrite sizes_app. unfold sizes_ at 2. cbn. lia. Qed.
Lemma sizes_1 {A} (fs : list (list A)) : 0 < length fs -> sizes_ (firstn 1 fs) = length (nth 0 fs []).
Proof. intros H. rewrite sizes_S by auto. cbn [firstn]. unfold sizes_. cbn. lia. Qed.

(** Loops in which a list grows. *)
Lemma for_up_grow {A} (size : A -> nat) L (f g : nat -> A -> res A) n : forall lo a r,
  (forall i x y, f i x = Ok y -> size x <= size y /\ (size y <= L -> g i x = Ok y)) ->
  for_up lo n f a = Ok r -> size a <= size r /\ (size r <= L -> for_up lo n g a = Ok r).
Proof.
  induction n as [|n IH]; intros lo a r H E; cbn [for_up] in *; [injection E as ->; auto|].
  apply bind_ok in E. destruct E as (x & E1 & E2). destruct (H _ _ _ E1) as (H1 & H2). destruct (IH _ _ _ H E2) as (H3 & H4).
  split; [lia|]. intros HL. rewrite H2 by lia. cbn [bind]. auto.
Qed.

Section Basis.
Context (MAXB lw : nat) (HB : table_ok MAXB) {T : Type} {o : SOps T}.

Lemma fits_small d : d < MAXB -> fits64 (d + 1).
Proof using HB. unfold table_ok, fits64 in *. lia. Qed.

Lemma bern_64 d x l : d + 1 <= lw -> BernsteinEvaluate MAXB d x = Ok l -> BernsteinEvaluate_64 MAXB lw d x = Ok l /\ length l = d + 1.
Proof using HB.
  intros HL E. unfold BernsteinEvaluate, BernsteinEvaluate_64 in *. destruct (Nat.ltb_spec d MAXB) as [Hd|]; [|discriminate]. cbn [assert_ bind] in *.
  pose proof (fits_small d Hd) as HF. rewrite w64_id by auto. unfold grow. rewrite (proj2 (Nat.ltb_ge _ _)) by auto. cbn [bind].
  apply bind_ok in E. destruct E as ((ev & c) & E1 & E). apply bind_ok in E. destruct E as ((ev' & c') & E2 & E). injection E as <-.
  match type of E1 with for_up _ _ ?f _ = _ => match goal with |- bind (for_up _ _ ?g _) _ = _ /\ _ =>
    destruct (for_up_pci2 (fun i '((v, _) : list T * T) => length v = i) f g (d + 1) 0 ([], s1) (ev, c) eq_refl) with (2 := E1) as (G1 & L1) end end.
  { intros i (v & c0) y Hi Hv Ey. apply bind_ok in Ey. destruct Ey as (b & Eb & Ey). apply (choose_64_same _ _ _ _ HB) in Eb. destruct Eb as (_ & ->). cbn [bind].
    unfold push_back. rewrite (proj2 (Nat.ltb_lt _ _)) by lia. cbn [bind]. split; [exact Ey|]. injection Ey as <-. rewrite app_length. cbn. lia. }
  rewrite G1. cbn [bind]. cbn [Nat.add] in L1.
  match type of E2 with for_up _ _ ?f ?a = _ => match goal with |- bind (for_up _ _ ?g _) _ = _ /\ _ =>
    destruct (for_up_refine (fun '((v, _) : list T * T) => length v = d + 1) f g (d + 1) 0 a (ev', c') L1) with (2 := E2) as (G2 & L2) end end.
  { intros i (v & c0) y Hi Hv Ey. rewrite w64_sub_id by (first [lia|unfold fits64 in *; lia]). split; [exact Ey|].
    apply bind_ok in Ey. destruct Ey as (e & _ & Ey). apply bind_ok in Ey. destruct Ey as (v' & Es & Ey). injection Ey as <-.
    apply set_inv in Es. destruct Es as (_ & ->). rewrite length_upd. exact Hv. }
  rewrite G2. cbn [bind]. auto.
Qed.

Lemma bernd_64 d x k l : d + 1 <= lw -> BernsteinEvaluateDerivative MAXB d x k = Ok l ->
  BernsteinEvaluateDerivative_64 MAXB lw d x k = Ok l /\ length l = d + 1.
Proof using HB.
  intros HL E. unfold BernsteinEvaluateDerivative, BernsteinEvaluateDerivative_64 in *. destruct (Nat.ltb_spec d MAXB) as [Hd|]; [|discriminate]. cbn [assert_ bind] in *.
  pose proof (fits_small d Hd) as HF. rewrite w64_id by auto. unfold grow. rewrite (proj2 (Nat.ltb_ge lw _)) by auto. cbn [bind].
  destruct (Nat.ltb_spec d k) as [Hk|Hk]. { injection E as <-. split; [reflexivity|apply repeat_length]. }
  destruct (Nat.eqb_spec k 0) as [->|H0]; [apply bern_64; auto|].
  rewrite w64_sub_id by (first [lia|unfold fits64 in *; lia]).
  apply bind_ok in E. destruct E as (b & E1 & E). destruct (bern_64 (d - k) x b ltac:(lia) E1) as (-> & Lb). cbn [bind].
  replace (d - (d - k)) with k by lia.
  apply bind_ok in E. destruct E as (aux & E2 & E). rewrite E2. cbn [bind].
  edestruct (for_up_refine (fun v : list T => length v = d + 1)) with (3 := E) as (G & LG); [apply repeat_length| |split; [exact G|exact LG]].
  intros i v y Hi Hv Ey. cbv beta zeta in *. rewrite (w64_id (i + k)) by (unfold table_ok, fits64 in *; lia).
  rewrite Nat2Z.inj_add.
  set (km := Z.to_nat (Z.max 0 (i32 (u64 (Z.of_nat i + Z.of_nat k - Z.of_nat d))))) in *.
  apply bind_ok in Ey. destruct Ey as (v1 & F1 & Ey).
  edestruct (for_up_refine (fun v : list T => length v = d + 1)) with (3 := F1) as (G1 & L1); [exact Hv| |rewrite G1; cbn [bind]; split; [exact Ey|]].
  - intros j u z Hj Hu Ez. cbv beta in *. apply bind_ok in Ez. destruct Ez as (c & Ec & Ez). apply (choose_64_same _ _ _ _ HB) in Ec. destruct Ec as (_ & ->). cbn [bind].
    rewrite w64_sub_id by (first [lia|unfold table_ok, fits64 in *; lia]). rewrite (w64_id (j + k)) by (unfold table_ok, fits64 in *; lia). split; [exact Ez|].
    apply bind_ok in Ez. destruct Ez as (bv & _ & Ez). apply bind_ok in Ez. destruct Ez as (e & _ & Ez). apply set_inv in Ez. destruct Ez as (_ & ->). rewrite length_upd. exact Hu.
  - apply bind_ok in Ey. destruct Ey as (e & _ & Ey). apply set_inv in Ey. destruct Ey as (_ & ->). rewrite length_upd. exact L1.
Qed.

Lemma rc_length fs : forall k res c r, k < length fs -> RecursiveCombine_ k fs res c = Ok r -> length r = length res + sizes_ (firstn (S k) fs).
Proof.
  induction k as [|k IH]; intros res c r Hk E; cbn [RecursiveCombine_] in E; rewrite (get_ok []) in E by auto; cbn [bind] in E.
  - rewrite sizes_1 by auto. refine (proj2 (for_up_pci2 (fun i v => length v = length res + i) _ _ _ _ _ _ _ _ E)); [lia|].
    intros i v y Hi Hv Ey. split; [exact Ey|]. apply bind_ok in Ey. destruct Ey as (x & _ & Ey). injection Ey as <-. rewrite app_length. cbn. lia.
  - rewrite sizes_S by auto. match type of E with for_up _ ?n ?f _ = _ =>
      destruct (for_up_pci2 (fun i v => length v = length res + i * sizes_ (firstn (S k) fs)) f f n 0 res r) with (3 := E) as (_ & HR) end.
    + lia.
    + intros i v y Hi Hv Ey. split; [exact Ey|]. apply bind_ok in Ey. destruct Ey as (x & _ & Ey). rewrite (IH _ _ _ ltac:(lia) Ey). lia.
    + rewrite HR, Nat.add_0_l, (Nat.mul_comm (sizes_ _)). reflexivity.
Qed.
Lemma rc_grow fs : forall k res c r, RecursiveCombine_ k fs res c = Ok r -> length res <= length r /\ (length r <= lw -> RecursiveCombine__64 lw k fs res c = Ok r).
Proof.
  induction k as [|k IH]; intros res c r E; cbn [RecursiveCombine_ RecursiveCombine__64] in *; apply bind_ok in E; destruct E as (fk & E1 & E); rewrite E1; cbn [bind];
    (refine (for_up_grow (@length T) lw _ _ _ _ _ _ _ E)); intros i v y Ey; apply bind_ok in Ey; destruct Ey as (x & E2 & Ey); rewrite E2; cbn [bind].
  - injection Ey as <-. rewrite app_length. cbn [length]. split; [lia|]. intros H. unfold push_back. rewrite (proj2 (Nat.ltb_lt _ _)) by lia. reflexivity.
  - apply IH. exact Ey.
Qed.
Lemma sizes_fold (fs : list (list T)) : fold_left (fun n ii => w64 (n * length ii)) fs 1 = w64 (sizes_ fs).
Proof.
  enough (H : forall n, fold_left (fun n ii => w64 (n * length ii)) fs (w64 n) = w64 (n * sizes_ fs)) by (rewrite <- w64_1, H, Nat.mul_1_l; reflexivity).
  induction fs as [|f fs IH]; intros n; cbn [fold_left]; [unfold sizes_; cbn; rewrite Nat.mul_1_r; reflexivity|].
  rewrite w64_mul_l, IH. f_equal. unfold sizes_. cbn. unfold prod. lia.
Qed.
Lemma rc_64 fs r : sizes_ fs <= lw -> fs <> [] -> RecursiveCombine fs = Ok r -> RecursiveCombine_64 lw fs = Ok r /\ length r = sizes_ fs.
Proof.
  intros HL H0 E. unfold RecursiveCombine, RecursiveCombine_64 in *. assert (0 < length fs) by (destruct fs; [congruence|cbn; lia]).
  pose proof (rc_length fs (length fs - 1) _ _ _ ltac:(lia) E) as HR. replace (S (length fs - 1)) with (length fs) in HR by lia. rewrite firstn_all in HR. cbn [length Nat.add] in HR.
  rewrite sizes_fold. assert (w64 (sizes_ fs) <= sizes_ fs). { apply Nat2Z.inj_le. rewrite w64_Z. apply Z.mod_le; lia. }
  unfold grow. rewrite (proj2 (Nat.ltb_ge lw _)) by lia. cbn [bind]. split; [|exact HR]. apply (rc_grow fs _ _ _ _ E). lia.
Qed.

Lemma binom_product_64_same lhs rhs n b : binom_product MAXB lhs rhs n = Ok b -> binom_product_64 MAXB lhs rhs n = Ok b.
Proof using HB.
  intros E. unfold binom_product, binom_product_64 in *. refine (proj1 (for_up_refine (fun _ => True) _ _ _ _ _ _ I _ E)).
  intros i x y Hi _ Ey. split; [|auto]. apply bind_ok in Ey. destruct Ey as (a & -> & Ey). cbn [bind]. apply bind_ok in Ey. destruct Ey as (c & -> & Ey). cbn [bind].
  apply bind_ok in Ey. destruct Ey as (d & Ed & Ey). apply (choose_64_same _ _ _ _ HB) in Ed. destruct Ed as (_ & ->). cbn [bind]. exact Ey.
Qed.
End Basis.

Section Generic.
Context (MAXB lw : nat) (HB : table_ok MAXB) {T V : Type} {o : SOps T} {ov : VOps T V}.

Lemma sizes_degrees (degs : list nat) (fs : list (list T)) : length fs = length degs -> (forall j, j < length degs -> length (nth j fs []) = nth j degs 0 + 1) ->
  sizes_ fs = n_coeffs degs.
Proof.
  revert degs. induction fs as [|f fs IH]; intros [|p degs] HL HN; try discriminate; [reflexivity|].
  rewrite n_coeffs_cons. rewrite <- (IH degs) by (try (injection HL; auto; fail); intros j Hj; apply (HN (S j)); cbn; lia).
  pose proof (HN 0 ltac:(cbn; lia)) as H0. cbn [nth] in H0. unfold sizes_, prod. cbn [map fold_right]. rewrite H0. f_equal. lia.
Qed.
Lemma contributions_64 (s : spline V) xs fs : n_coeffs (degrees s) <= lw -> BasisFunctionContributions MAXB s xs = Ok fs ->
  BasisFunctionContributions_64 MAXB lw s xs = Ok fs /\ length fs = length (degrees s) /\ sizes_ fs = n_coeffs (degrees s).
Proof using HB.
  intros HL E. unfold BasisFunctionContributions, BasisFunctionContributions_64 in *.
  edestruct (for_up_pci2 (fun i (fs : list (list T)) => length fs = length (degrees s) /\ forall j, j < i -> length (nth j fs []) = nth j (degrees s) 0 + 1)) with (3 := E) as (G & LG & NG).
  3: split; [exact G|split; [exact LG|apply sizes_degrees; [exact LG|intros j Hj; apply NG; lia]]].
  - split; [apply repeat_length|intros; lia].
  - intros i v y Hi (Lv & Nv) Ey. cbv beta in *. rewrite (get_ok 0) in * by lia. cbn [bind] in *. apply bind_ok in Ey. destruct Ey as (x & -> & Ey). cbn [bind].
    apply bind_ok in Ey. destruct Ey as (b & Eb & Ey). pose proof (n_coeffs_nth_le (degrees s) i ltac:(lia)) as Hn. destruct (bern_64 MAXB lw HB _ _ _ (Nat.le_trans _ _ _ Hn HL) Eb) as (-> & Lb). cbn [bind].
    split; [exact Ey|]. apply set_inv in Ey. destruct Ey as (_ & ->). rewrite length_upd. split; [exact Lv|]. intros j Hj.
    destruct (Nat.eq_dec j i) as [->|]; [rewrite nth_upd_same by lia; exact Lb|rewrite nth_upd by lia; destruct (Nat.eqb_spec j i); [lia|]; apply Nv; lia].
Qed.
Lemma basis_64 (s : spline V) xs l : degrees s <> [] -> n_coeffs (degrees s) <= lw -> BasisFunctions MAXB s xs = Ok l ->
  BasisFunctions_64 MAXB lw s xs = Ok l /\ length l = n_coeffs (degrees s).
Proof using HB.
  intros Hd HL E. unfold BasisFunctions, BasisFunctions_64 in *. apply bind_ok in E. destruct E as (fs & E1 & E).
  destruct (contributions_64 s xs fs HL E1) as (-> & L1 & S1). cbn [bind]. rewrite <- S1 in *. apply rc_64; auto. destruct fs; [|discriminate]. destruct (degrees s); [congruence|discriminate].
Qed.
Lemma forward_64 (s : spline V) xs v : degrees s <> [] -> n_coeffs (degrees s) <= lw -> ForwardEvaluate MAXB s xs = Ok v -> ForwardEvaluate_64 MAXB lw s xs = Ok v.
Proof using HB.
  intros Hd HL E. unfold ForwardEvaluate, ForwardEvaluate_64 in *. apply bind_ok in E. destruct E as (fs & E1 & E). destruct (basis_64 s xs fs Hd HL E1) as (-> & _). exact E.
Qed.
Lemma dcontributions_64 (s : spline V) xs ks fs : n_coeffs (degrees s) <= lw -> BasisFunctionsDerivativeContributions MAXB s xs ks = Ok fs ->
  BasisFunctionsDerivativeContributions_64 MAXB lw s xs ks = Ok fs /\ length fs = length (degrees s) /\ sizes_ fs = n_coeffs (degrees s).
Proof using HB.
  intros HL E. unfold BasisFunctionsDerivativeContributions, BasisFunctionsDerivativeContributions_64 in *.
  edestruct (for_up_pci2 (fun i (fs : list (list T)) => length fs = length (degrees s) /\ forall j, j < i -> length (nth j fs []) = nth j (degrees s) 0 + 1)) with (3 := E) as (G & LG & NG).
  3: split; [exact G|split; [exact LG|apply sizes_degrees; [exact LG|intros j Hj; apply NG; lia]]].
  - split; [apply repeat_length|intros; lia].
  - intros i v y Hi (Lv & Nv) Ey. cbv beta in *. rewrite (get_ok 0) in * by lia. cbn [bind] in *. apply bind_ok in Ey. destruct Ey as (x & -> & Ey). cbn [bind].
    apply bind_ok in Ey. destruct Ey as (k & -> & Ey). cbn [bind].
    apply bind_ok in Ey. destruct Ey as (b & Eb & Ey). pose proof (n_coeffs_nth_le (degrees s) i ltac:(lia)) as Hn. destruct (bernd_64 MAXB lw HB _ _ _ _ (Nat.le_trans _ _ _ Hn HL) Eb) as (-> & Lb). cbn [bind].
    split; [exact Ey|]. apply set_inv in Ey. destruct Ey as (_ & ->). rewrite length_upd. split; [exact Lv|]. intros j Hj.
    destruct (Nat.eq_dec j i) as [->|]; [rewrite nth_upd_same by lia; exact Lb|rewrite nth_upd by lia; destruct (Nat.eqb_spec j i); [lia|]; apply Nv; lia].
Qed.
Lemma dbasis_64 (s : spline V) xs ks l : degrees s <> [] -> n_coeffs (degrees s) <= lw -> BasisFunctionsDerivatives MAXB s xs ks = Ok l ->
  BasisFunctionsDerivatives_64 MAXB lw s xs ks = Ok l /\ length l = n_coeffs (degrees s).
Proof using HB.
  intros Hd HL E. unfold BasisFunctionsDerivatives, BasisFunctionsDerivatives_64 in *. apply bind_ok in E. destruct E as (fs & E1 & E).
  destruct (dcontributions_64 s xs ks fs HL E1) as (-> & L1 & S1). cbn [bind]. rewrite <- S1 in *. apply rc_64; auto. destruct fs; [|discriminate]. destruct (degrees s); [congruence|discriminate].
Qed.
Lemma evalderiv_64 (s : spline V) xs ks v : degrees s <> [] -> n_coeffs (degrees s) <= lw -> EvaluateDerivative MAXB s xs ks = Ok v -> EvaluateDerivative_64 MAXB lw s xs ks = Ok v.
Proof using HB.
  intros Hd HL E. unfold EvaluateDerivative, EvaluateDerivative_64 in *. apply bind_ok in E. destruct E as (fs & E1 & E). destruct (dbasis_64 s xs ks fs Hd HL E1) as (-> & _). exact E.
Qed.
End Generic.

Lemma for_up_sim {A B} (h : A -> B) (f : nat -> A -> res A) (g : nat -> B -> res B) n : forall lo a r,
  (forall i x y, f i x = Ok y -> g i (h x) = Ok (h y)) -> for_up lo n f a = Ok r -> for_up lo n g (h a) = Ok (h r).
Proof.
  induction n as [|n IH]; intros lo a r H E; cbn [for_up] in *; [injection E as ->; reflexivity|].
  apply bind_ok in E. destruct E as (x & E1 & E2). rewrite (H _ _ _ E1). cbn [bind]. eauto.
Qed.
Lemma global_ids_64_ok nd req x : global_ids nd req = Ok x -> global_ids_64 nd req = Ok (w64 x).
Proof.
  intros E. unfold global_ids, global_ids_64 in *. apply bind_ok in E. destruct E as ((id & off) & E & Ex). injection Ex as ->.
  change (0, 1) with (w64 0, w64 1).
  match type of E with for_up _ _ ?f _ = _ => match goal with |- bind (for_up _ _ ?g _) _ = _ =>
    rewrite (for_up_sim (fun '(a, b) => (w64 a, w64 b)) f g _ _ (0, 1) _) with (2 := E) end end; [reflexivity|].
  intros i (a & b) y Ey. apply bind_ok in Ey. destruct Ey as (n & -> & Ey). cbn [bind]. destruct (n =? 0); [injection Ey as <-; reflexivity|].
  apply bind_ok in Ey. destruct Ey as (q & -> & Ey). cbn [bind]. injection Ey as <-. rewrite (w64_mul_l b), w64_mul_l, w64_mul_r, w64_add. reflexivity.
Qed.
Lemma global_self nd : global_ids_64 nd nd = Ok (w64 (n_coeffs nd - 1)).
Proof. pose proof (position_max nd). apply global_ids_64_ok. rewrite global_ids_ok by apply valid_refl. f_equal. lia. Qed.
Lemma number_64 nd : w64 (w64 (n_coeffs nd - 1) + 1) = w64 (n_coeffs nd).
Proof. pose proof (n_coeffs_pos nd). rewrite w64_add_l. f_equal. lia. Qed.

Lemma local_ids_64_same nd id l : fits64 (n_coeffs nd) -> fits64 id -> local_ids nd id = Ok l -> local_ids_64 nd id = Ok l.
Proof.
  intros HF HI E. unfold local_ids, local_ids_64 in *. apply bind_ok in E. destruct E as ((ids & id') & E & Ex). injection Ex as <-.
  match type of E with for_up _ ?n ?f ?a = ?r => match goal with |- bind (for_up _ _ ?g _) _ = _ =>
    destruct (for_up_refine (fun '(_, id) => fits64 id) f g n 0 a (ids, id') HI) with (2 := E) as (G & _) end end; [|rewrite G; reflexivity].
  intros i (u & v) y Hi Hv Ey. apply bind_ok in Ey. destruct Ey as (n & En & Ey). rewrite En. cbn [bind]. destruct (n =? 0); [injection Ey as <-; auto|].
  apply (get_inv 0) in En. destruct En as (Hn & En).
  assert (Fn : fits64 (n + 1)). { eapply fits64_le; [|exact HF]. pose proof (n_coeffs_nth_le nd i Hn). rewrite En in *. lia. }
  unfold mod64, div64. rewrite w64_id by auto. destruct (Nat.eqb_spec (n + 1) 0); [lia|]. cbn [bind]. cbv zeta in Ey. apply bind_ok in Ey. destruct Ey as (u' & -> & Ey). cbn [bind].
  pose proof (Nat.mod_le v (n + 1) ltac:(lia)). rewrite w64_sub_id by auto. cbn [bind]. split; [exact Ey|]. injection Ey as <-. eapply fits64_le; [|exact Hv].
  apply Nat.le_trans with (v - v mod (n + 1)); [apply Nat.div_le_upper_bound; [lia|nia]|lia].
Qed.

Section Rational.
Context (MAXB lv lw lr : nat) (HB : table_ok MAXB) {T V : Type} {o : SOps T} {ov : VOps T V}.

Lemma R_unweighted_64 (r : rspline T V) xs l : rwf r -> n_coeffs (rdegrees r) <= lw -> R_UnweightedBasisFunctions MAXB r xs = Ok l -> R_UnweightedBasisFunctions_64 MAXB lw r xs = Ok l.
Proof using HB.
  intros (Wu & Ww & D) HL E. unfold R_UnweightedBasisFunctions, R_UnweightedBasisFunctions_64 in *. destruct (compatible r); [|discriminate]. cbn [assert_ bind] in *.
  apply bind_ok in E. destruct E as (fs & E1 & E). destruct (basis_64 MAXB lw HB _ _ _ (proj1 Ww) ltac:(rewrite D; exact HL) E1) as (-> & _). exact E.
Qed.
Lemma R_basis_64 (r : rspline T V) xs l : rwf r -> n_coeffs (rdegrees r) <= lw -> R_BasisFunctions MAXB r xs = Ok l -> R_BasisFunctions_64 MAXB lw r xs = Ok l.
Proof using HB.
  intros Wr HL E. unfold R_BasisFunctions, R_BasisFunctions_64 in *. destruct (compatible r); [|discriminate]. cbn [assert_ bind] in *.
  apply bind_ok in E. destruct E as (fs & E1 & E). rewrite (R_unweighted_64 _ _ _ Wr HL E1). exact E.
Qed.
Lemma R_forward_64 (r : rspline T V) xs v : rwf r -> n_coeffs (rdegrees r) <= lw -> R_ForwardEvaluate MAXB r xs = Ok v -> R_ForwardEvaluate_64 MAXB lw r xs = Ok v.
Proof using HB.
  intros (Wu & Ww & D) HL E. unfold R_ForwardEvaluate, R_ForwardEvaluate_64 in *. destruct (compatible r); [|discriminate]. cbn [assert_ bind] in *.
  apply bind_ok in E. destruct E as (fs & E1 & E). destruct (basis_64 MAXB lw HB _ _ _ (proj1 Wu) HL E1) as (-> & _). exact E.
Qed.
Lemma leibniz_64 {X} (dflt : X) sub scale nd A w l : fits64 (n_coeffs nd) ->
  leibniz_loop MAXB dflt sub scale nd (n_coeffs nd) A w = Ok l -> leibniz_loop_64 MAXB dflt sub scale nd (n_coeffs nd) A w = Ok l.
Proof using HB.
  intros HF E. unfold leibniz_loop, leibniz_loop_64 in *. refine (proj1 (for_up_refine (fun _ => True) _ _ _ _ _ _ I _ E)).
  intros i x y Hi _ Ey. split; [|auto]. apply bind_ok in Ey. destruct Ey as (lhs & E1 & Ey). rewrite (local_ids_64_same nd i lhs HF ltac:(unfold fits64 in *; lia) E1). cbn [bind].
  apply bind_ok in Ey. destruct Ey as (a & -> & Ey). cbn [bind]. apply bind_ok in Ey. destruct Ey as (ds & -> & Ey). cbn [bind].
  apply bind_ok in Ey. destruct Ey as (ds' & E2 & Ey).
  match type of E2 with for_up _ ?n ?f ?a = _ => match goal with |- bind (for_up _ _ ?g _) _ = _ =>
    destruct (for_up_refine (fun _ => True) f g n 1 a ds' I) with (2 := E2) as (G & _) end end; [|rewrite G; exact Ey].
  intros j u z Hj _ Ez. split; [|auto]. apply bind_ok in Ez. destruct Ez as (rhs & E3 & Ez). rewrite (local_ids_64_same nd j rhs HF ltac:(unfold fits64 in *; lia) E3). cbn [bind].
  apply bind_ok in Ez. destruct Ez as (sk & -> & Ez). cbn [bind]. destruct sk; [exact Ez|].
  apply bind_ok in Ez. destruct Ez as (b & E4 & Ez). rewrite (binom_product_64_same MAXB HB _ _ _ _ E4). cbn [bind].
  destruct (Nat.eq_dec i 0); [lia|]. rewrite w64_sub_id by (unfold fits64 in *; lia || lia). exact Ez.
Qed.
Lemma R_evalderiv_64 (r : rspline T V) xs nd v : rwf r -> n_coeffs (rdegrees r) <= lw -> fits64 (n_coeffs nd) -> n_coeffs nd <= lv -> n_coeffs nd <= lw ->
  R_EvaluateDerivative MAXB r xs nd = Ok v -> R_EvaluateDerivative_64 MAXB lv lw r xs nd = Ok v.
Proof using HB.
  intros (Wu & Ww & D) HL HF L1 L2 E. unfold R_EvaluateDerivative, R_EvaluateDerivative_64 in *. pose proof (position_max nd) as HP.
  rewrite global_ids_ok in E by apply valid_refl. cbn [bind] in E. rewrite HP in E. rewrite global_self. cbn [bind]. rewrite number_64, w64_id by auto.
  rewrite (proj2 (Nat.ltb_ge lv _)), (proj2 (Nat.ltb_ge lw _)) by auto.
  apply bind_ok in E. destruct E as ((A & w) & E1 & E).
  match type of E1 with for_up _ ?n ?f ?a = _ => match goal with |- bind (for_up _ _ ?g _) _ = _ =>
    destruct (for_up_refine (fun _ => True) f g n 0 a (A, w) I) with (2 := E1) as (G & _) end end.
  - intros i (a & b) y Hi _ Ey. split; [|auto]. apply bind_ok in Ey. destruct Ey as (req & E2 & Ey). rewrite (local_ids_64_same nd i req HF ltac:(unfold fits64 in *; lia) E2). cbn [bind].
    apply bind_ok in Ey. destruct Ey as (p & E3 & Ey). rewrite (evalderiv_64 MAXB lw HB _ _ _ _ (proj1 Wu) HL E3). cbn [bind].
    apply bind_ok in Ey. destruct Ey as (a' & -> & Ey). cbn [bind].
    apply bind_ok in Ey. destruct Ey as (q & E4 & Ey). rewrite (evalderiv_64 MAXB lw HB _ _ _ _ (proj1 Ww) ltac:(rewrite D; exact HL) E4). exact Ey.
  - rewrite G. cbn [bind]. apply bind_ok in E. destruct E as (w0 & -> & E). cbn [bind]. apply bind_ok in E. destruct E as (inv & -> & E). cbn [bind].
    apply bind_ok in E. destruct E as (ds & E5 & E). rewrite (leibniz_64 _ _ _ _ _ _ _ HF E5). cbn [bind]. rewrite w64_sub_id by (auto; apply n_coeffs_pos). exact E.
Qed.
Lemma R_dbasis_64 (r : rspline T V) xs nd v : rwf r -> n_coeffs (rdegrees r) <= lw -> fits64 (n_coeffs nd) -> n_coeffs nd <= lr -> n_coeffs nd <= lw ->
  R_BasisFunctionsDerivatives MAXB r xs nd = Ok v -> R_BasisFunctionsDerivatives_64 MAXB lw lr r xs nd = Ok v.
Proof using HB.
  intros (Wu & Ww & D) HL HF L1 L2 E. unfold R_BasisFunctionsDerivatives, R_BasisFunctionsDerivatives_64 in *. pose proof (position_max nd) as HP.
  rewrite global_ids_ok in E by apply valid_refl. cbn [bind] in E. rewrite HP in E. rewrite global_self. cbn [bind]. rewrite number_64, w64_id by auto.
  cbv zeta in *. rewrite (proj2 (Nat.ltb_ge lr _)), (proj2 (Nat.ltb_ge lw _)) by auto.
  apply bind_ok in E. destruct E as ((A & w) & E1 & E).
  match type of E1 with for_up _ ?n ?f ?a = _ => match goal with |- bind (for_up _ _ ?g _) _ = _ =>
    destruct (for_up_refine (fun _ => True) f g n 0 a (A, w) I) with (2 := E1) as (G & _) end end.
  - intros i (a & b) y Hi _ Ey. split; [|auto]. apply bind_ok in Ey. destruct Ey as (req & E2 & Ey). rewrite (local_ids_64_same nd i req HF ltac:(unfold fits64 in *; lia) E2). cbn [bind].
    apply bind_ok in Ey. destruct Ey as (p & E3 & Ey). destruct (dbasis_64 MAXB lw HB _ _ _ _ (proj1 Wu) HL E3) as (-> & _). exact Ey.
  - rewrite G. cbn [bind]. apply bind_ok in E. destruct E as (w0 & -> & E). cbn [bind]. apply bind_ok in E. destruct E as (inv & -> & E). cbn [bind].
    apply bind_ok in E. destruct E as (ds & E5 & E). rewrite (leibniz_64 _ _ _ _ _ _ _ HF E5). cbn [bind]. rewrite w64_sub_id by (auto; apply n_coeffs_pos). exact E.
Qed.
End Rational.
