(** Sizes in 64 bits: basis functions, forward evaluation and evaluated derivatives. *)
From Coq Require Import Arith Lia List ZArith NArith Bool Reals.
From Verif Require Import Prelude Scalar Spec SpecSpline SpecRational SpecReal ModelBasis ModelPoint ModelSpline ModelRational ModelSize ModelSize2 ModelSize3 ModelSize4 ProofBasis ProofIndex ProofEval ProofDeriv ProofLeibniz ProofRational ProofRational4 ProofSize ProofSize2 ProofSize4 ProofSize5 ProofArith ClaimsA ClaimsB ClaimsF ClaimsG ClaimsI ClaimsSize2 ClaimsSize3.
Import ListNotations.
Local Open Scope nat_scope.

Lemma c113_basis : forall (T V : Type) (o : SOps T) (ov : VOps T V) (MAXB limit_w : nat) (s : spline V) (xs : list T) (orders : list nat),
  MAXB <= 68 -> wf s -> n_coeffs (degrees s) <= limit_w ->
  (forall l, BasisFunctions MAXB s xs = Ok l -> BasisFunctions_64 MAXB limit_w s xs = Ok l) /\
  (forall v, ForwardEvaluate MAXB s xs = Ok v -> ForwardEvaluate_64 MAXB limit_w s xs = Ok v) /\
  (forall l, BasisFunctionsDerivatives MAXB s xs orders = Ok l -> BasisFunctionsDerivatives_64 MAXB limit_w s xs orders = Ok l) /\
  (forall v, EvaluateDerivative MAXB s xs orders = Ok v -> EvaluateDerivative_64 MAXB limit_w s xs orders = Ok v).
Proof.
  intros T V o ov MAXB lw s xs nd HB (Hd & _) HL. split; [|split; [|split]].
  - intros l E. exact (proj1 (basis_64 MAXB lw HB s xs l Hd HL E)).
  - intros v E. exact (forward_64 MAXB lw HB s xs v Hd HL E).
  - intros l E. exact (proj1 (dbasis_64 MAXB lw HB s xs nd l Hd HL E)).
  - intros v E. exact (evalderiv_64 MAXB lw HB s xs nd v Hd HL E).
Qed.
Lemma c113_forward : forall (T V : Type) (o : SOps T) (ov : VOps T V) (F : SField T) (M : VMod T V) (MAXB limit_w : nat) (s : spline V) (xs : list T),
  MAXB <= 68 -> wf s -> (Z.of_nat (n_coeffs (degrees s)) < 2 ^ 64)%Z -> n_coeffs (degrees s) <= limit_w ->
  length xs = length (degrees s) -> Forall (fun p => p < MAXB) (degrees s) ->
  exists v, ForwardEvaluate_64 MAXB limit_w s xs = Ok v /\ Evaluate_64 s xs = Ok v.
Proof.
  intros T V o ov F M MAXB lw s xs HB Ws HF HL HX HM. destruct (c10_forward_evaluate T V o ov F M MAXB s xs HB Ws HX HM) as (E & (v & Ev)).
  exists v. split; [apply forward_64; auto; [apply Ws|congruence]|]. rewrite eval_64_eq by auto. exact Ev.
Qed.
Lemma c113_derivative : forall (V : Type) (ov : VOps R V) (M : VMod R V) (MAXB limit_w : nat) (s : spline V) (orders : list nat),
  MAXB <= 68 -> wf s -> (Z.of_nat (n_coeffs (degrees s)) < 2 ^ 64)%Z -> n_coeffs (degrees s) <= limit_w ->
  length orders = length (degrees s) -> Forall (fun p => p < MAXB) (degrees s) ->
  exists f g, (forall xs : list R, length xs = length (degrees s) ->
      Evaluate_64 s xs = Ok (f xs) /\ EvaluateDerivative_64 MAXB limit_w s xs orders = Ok (g xs)) /\
    forall (phi : V -> R) dirs, linear_form phi -> directions_of orders dirs ->
      mixed (fun xs => length xs = length (degrees s)) dirs (fun xs => phi (f xs)) (fun xs => phi (g xs)).
Proof.
  intros V ov M MAXB lw s nd HB Ws HF HL HO HM. destruct (c15_derivative V ov M MAXB s nd HB Ws HO HM) as (f & g & E & D). exists f, g. split; [|exact D].
  intros xs HX. destruct (E xs HX) as (E1 & E2). split; [rewrite eval_64_eq by auto; exact E1|]. apply evalderiv_64; auto. apply Ws.
Qed.
Lemma c113_rational : forall (T V : Type) (o : SOps T) (ov : VOps T V) (MAXB limit limit_w limit_r : nat) (r : rspline T V) (xs : list T) (orders : list nat),
  MAXB <= 68 -> rwf r -> n_coeffs (rdegrees r) <= limit_w ->
  (forall l, R_BasisFunctions MAXB r xs = Ok l -> R_BasisFunctions_64 MAXB limit_w r xs = Ok l) /\
  (forall l, R_UnweightedBasisFunctions MAXB r xs = Ok l -> R_UnweightedBasisFunctions_64 MAXB limit_w r xs = Ok l) /\
  (forall v, R_ForwardEvaluate MAXB r xs = Ok v -> R_ForwardEvaluate_64 MAXB limit_w r xs = Ok v) /\
  ((Z.of_nat (n_coeffs orders) < 2 ^ 64)%Z -> n_coeffs orders <= limit_w ->
   (forall v, n_coeffs orders <= limit -> R_EvaluateDerivative MAXB r xs orders = Ok v -> R_EvaluateDerivative_64 MAXB limit limit_w r xs orders = Ok v) /\
   (forall l, n_coeffs orders <= limit_r -> R_BasisFunctionsDerivatives MAXB r xs orders = Ok l -> R_BasisFunctionsDerivatives_64 MAXB limit_w limit_r r xs orders = Ok l)).
Proof.
  intros T V o ov MAXB lv lw lr r xs nd HB Wr HL. split; [|split; [|split]].
  - intros l E. apply R_basis_64; auto.
  - intros l E. apply R_unweighted_64; auto.
  - intros v E. apply R_forward_64; auto.
  - intros HF H2. split; intros v H1 E; [apply R_evalderiv_64|apply R_dbasis_64]; auto.
Qed.
Lemma c113_rational_derivative : forall (V : Type) (ov : VOps R V) (M : VMod R V) (MAXB limit limit_w : nat) (r : rspline R V) (orders : list nat),
  MAXB <= 68 -> rwf r -> (Z.of_nat (n_coeffs (rdegrees r)) < 2 ^ 64)%Z -> n_coeffs (rdegrees r) <= limit_w -> length orders = length (rdegrees r) ->
  Forall (fun p => p < MAXB) (rdegrees r) -> Forall (fun k => k < MAXB) orders -> binoms_fit orders ->
  (Z.of_nat (n_coeffs orders) < 2 ^ 64)%Z -> n_coeffs orders <= limit -> n_coeffs orders <= limit_w ->
  exists f g, (forall xs : list R, rdomain r xs ->
      R_Evaluate_64 r xs = Ok (f xs) /\ R_EvaluateDerivative_64 MAXB limit limit_w r xs orders = Ok (g xs)) /\
    forall (phi : V -> R) dirs, linear_form phi -> directions_of orders dirs ->
      mixed (rdomain r) dirs (fun xs => phi (f xs)) (fun xs => phi (g xs)).
Proof.
  intros V ov M MAXB lv lw r nd HB Wr HFd HL HO HM HMo HBi HF H1 H2.
  destruct (c37_evaluate_derivative_partial V ov M MAXB r nd HB Wr HO HM HMo HBi) as (f & g & E & D). exists f, g. split; [|exact D].
  intros xs HX. destruct (E xs HX) as (E1 & E2). split; [|apply R_evalderiv_64; auto].
  apply R_Evaluate_64_same; auto.
Qed.

Section Fld.
Context {T : Type} {o : SOps T} {F : SField T}.
Add Field Tfield_size4 : (@sf_th T o F).
Lemma sdiv_one : sdiv s1 s1 = (s1 : T).
Proof using F. field. apply s1_neq0. Qed.
End Fld.

(** Vectors that do not fit. *)
Lemma for_up_full {A} (size : A -> nat) L d (f : nat -> A -> res A) n : forall lo a,
  (forall i x, lo <= i < lo + n -> size x <= L -> (exists y, f i x = Ok y /\ size y = size x + d /\ size y <= L) \/ (f i x = Throw /\ L < size x + d)) ->
  size a <= L -> (exists r, for_up lo n f a = Ok r /\ size r = size a + n * d /\ size r <= L) \/ (for_up lo n f a = Throw /\ L < size a + n * d).
Proof.
  induction n as [|n IH]; intros lo a H Ha; cbn [for_up]; [left; exists a; split; [reflexivity|lia]|].
  destruct (H lo a ltac:(lia) Ha) as [(y & -> & S1 & S2)|(-> & S1)]; cbn [bind]; [|right; split; [reflexivity|nia]].
  destruct (IH (S lo) y ltac:(intros i x Hi; apply H; lia) S2) as [(r & -> & S3 & S4)|(-> & S3)]; [left; exists r; split; [reflexivity|nia]|right; split; [reflexivity|nia]].
Qed.
Lemma for_up_or_throw {A} (I : nat -> A -> Prop) (f : nat -> A -> res A) n : forall lo a, I lo a ->
  (forall i x, lo <= i < lo + n -> I i x -> (exists y, f i x = Ok y /\ I (S i) y) \/ f i x = Throw) ->
  (exists r, for_up lo n f a = Ok r /\ I (lo + n) r) \/ for_up lo n f a = Throw.
Proof.
  induction n as [|n IH]; intros lo a Ha H; cbn [for_up]; [left; exists a; rewrite Nat.add_0_r; auto|].
  destruct (H lo a ltac:(lia) Ha) as [(y & -> & Hy)| ->]; cbn [bind]; [|right; reflexivity].
  replace (lo + S n) with (S lo + n) by lia. apply IH; auto. intros i x Hi. apply H. lia.
Qed.
Lemma bern_or_throw {T} {o : SOps T} MAXB lw d (x : T) : MAXB <= 68 -> d < MAXB ->
  (exists l, BernsteinEvaluate_64 MAXB lw d x = Ok l /\ length l = d + 1) \/ BernsteinEvaluate_64 MAXB lw d x = Throw.
Proof.
  intros HB Hd. destruct (Nat.le_gt_cases (d + 1) lw) as [HL|HL].
  - left. unfold BernsteinEvaluate_64. rewrite (proj2 (Nat.ltb_lt d MAXB)) by auto. cbn [assert_ bind]. assert (HF : fits64 (d + 1)) by (unfold fits64; lia).
    rewrite w64_id by auto. unfold grow. rewrite (proj2 (Nat.ltb_ge _ _)) by auto. cbn [bind].
    match goal with |- exists l, bind (for_up _ _ ?g ?a) _ = _ /\ _ => destruct (for_up_inv (fun i '((v, _) : list T * T) => length v = i) g (d + 1) 0 a eq_refl) as ((ev & c) & -> & L1) end.
    + intros i (v & c) Hi Hv. destruct (choose_64_same MAXB d i (binom d i) HB (choose_ok MAXB d i Hd HB ltac:(lia))) as (_ & ->). cbn [bind].
      unfold push_back. rewrite (proj2 (Nat.ltb_lt _ _)) by lia. cbn [bind]. eexists; split; [reflexivity|]. cbv beta iota. rewrite app_length. cbn. lia.
    + cbn [bind Nat.add] in *.
      match goal with |- exists l, bind (for_up _ _ ?g ?a) _ = _ /\ _ => destruct (for_up_inv (fun _ '((v, _) : list T * T) => length v = d + 1) g (d + 1) 0 a L1) as ((ev' & c') & -> & L2) end.
      * intros i (v & c1) Hi Hv. rewrite w64_sub_id by (first [lia|unfold fits64 in *; lia]). rewrite (get_ok s0) by lia. cbn [bind]. rewrite set_ok by lia. cbn [bind].
        eexists; split; [reflexivity|]. cbv beta iota. rewrite length_upd. exact Hv.
      * cbn [bind]. eauto.
  - right. unfold BernsteinEvaluate_64. rewrite (proj2 (Nat.ltb_lt d MAXB)) by auto. cbn [assert_ bind]. rewrite w64_id by (unfold fits64; lia).
    unfold grow. rewrite (proj2 (Nat.ltb_lt lw _)) by auto. reflexivity.
Qed.
Lemma rc_full {T} {o : SOps T} lw fs : forall k res (c : T), k < length fs -> length res <= lw ->
  (exists r, RecursiveCombine__64 lw k fs res c = Ok r /\ length r = length res + sizes_ (firstn (S k) fs) /\ length r <= lw) \/
  (RecursiveCombine__64 lw k fs res c = Throw /\ lw < length res + sizes_ (firstn (S k) fs)).
Proof.
  induction k as [|k IH]; intros res c Hk Hr; cbn [RecursiveCombine__64]; rewrite (get_ok []) by auto; cbn [bind].
  - rewrite sizes_1 by auto. 
    match goal with |- context [for_up 0 ?n ?f res] => pose proof (for_up_full (@length T) lw 1 f n 0 res) as H end. rewrite Nat.mul_1_r in H. apply H; [|exact Hr]. intros i x Hi Hx. rewrite (get_ok s0) by lia. cbn [bind]. unfold push_back.
    destruct (Nat.ltb_spec (length x) lw); [left; eexists; split; [reflexivity|]; rewrite app_length; cbn; lia|right; split; [reflexivity|lia]].
  - rewrite sizes_S by auto. rewrite (Nat.mul_comm (sizes_ _)).
    apply (for_up_full (@length T) lw (sizes_ (firstn (S k) fs))); [|exact Hr]. intros i x Hi Hx. rewrite (get_ok s0) by lia. cbn [bind]. apply IH; auto. lia.
Qed.
Lemma c113_limit : forall (T V : Type) (o : SOps T) (ov : VOps T V) (MAXB limit_w : nat) (s : spline V) (xs : list T),
  MAXB <= 68 -> wf s -> length xs = length (degrees s) -> Forall (fun p => p < MAXB) (degrees s) -> limit_w < n_coeffs (degrees s) ->
  BasisFunctions_64 MAXB limit_w s xs = Throw /\ ForwardEvaluate_64 MAXB limit_w s xs = Throw.
Proof.
  intros T V o ov MAXB lw s xs HB Ws HX HM HL.
  enough (E : BasisFunctions_64 MAXB lw s xs = Throw) by (split; [exact E|]; unfold ForwardEvaluate_64; rewrite E; reflexivity).
  unfold BasisFunctions_64, BasisFunctionContributions_64.
  match goal with |- bind (for_up _ ?n ?f ?a) _ = _ => destruct (for_up_or_throw (fun i (fs : list (list T)) => length fs = length (degrees s) /\ forall j, j < i -> length (nth j fs []) = nth j (degrees s) 0 + 1) f n 0 a) as [(fs & -> & L1 & L2)| ->] end;
    [split; [apply repeat_length|intros; lia]| | |reflexivity].
  - intros i fs Hi (Lf & Nf). cbv beta. rewrite (get_ok 0) by lia. cbn [bind]. rewrite (get_ok s0) by lia. cbn [bind].
    assert (Hp : nth i (degrees s) 0 < MAXB). { rewrite Forall_forall in HM. apply HM, nth_In. lia. }
    destruct (bern_or_throw MAXB lw (nth i (degrees s) 0) (nth i xs s0) HB Hp) as [(b & -> & Lb)| ->]; [left|right; reflexivity]. cbn [bind].
    rewrite set_ok by lia. eexists; split; [reflexivity|]. rewrite length_upd. split; [exact Lf|]. intros j Hj.
    destruct (Nat.eq_dec j i) as [->|]; [rewrite nth_upd_same by lia; exact Lb|rewrite nth_upd by lia; destruct (Nat.eqb_spec j i); [lia|]; apply Nf; lia].
  - cbn [bind Nat.add] in *. assert (SZ : sizes_ fs = n_coeffs (degrees s)) by (apply sizes_degrees; auto).
    assert (Hl : 0 < length fs). { rewrite L1. destruct Ws as (Hd & _). destruct (degrees s); [congruence|cbn; lia]. }
    unfold RecursiveCombine_64. rewrite sizes_fold, SZ. unfold grow. destruct (lw <? w64 (n_coeffs (degrees s))); [reflexivity|]. cbn [bind].
    destruct (rc_full lw fs (length fs - 1) [] s1 ltac:(lia) ltac:(cbn; lia)) as [(r & _ & R1 & R2)|(-> & _)]; [|reflexivity].
    replace (S (length fs - 1)) with (length fs) in R1 by lia. rewrite firstn_all, SZ in R1. cbn in R1. lia.
Qed.
Lemma c113_orders_limit : forall (T V : Type) (o : SOps T) (ov : VOps T V) (MAXB limit limit_w limit_r : nat) (r : rspline T V) (xs : list T) (orders : list nat),
  (Z.of_nat (n_coeffs orders) < 2 ^ 64)%Z ->
  (limit < n_coeffs orders \/ limit_w < n_coeffs orders -> R_EvaluateDerivative_64 MAXB limit limit_w r xs orders = Throw) /\
  (limit_r < n_coeffs orders \/ limit_w < n_coeffs orders -> R_BasisFunctionsDerivatives_64 MAXB limit_w limit_r r xs orders = Throw).
Proof.
  intros T V o ov MAXB lv lw lr r xs nd HF. unfold R_EvaluateDerivative_64, R_BasisFunctionsDerivatives_64. rewrite global_self. cbn [bind]. cbv zeta. rewrite number_64, w64_id by auto.
  split; intros H.
  - destruct (Nat.ltb_spec lv (n_coeffs nd)); [reflexivity|]. rewrite (proj2 (Nat.ltb_lt lw _)) by lia. reflexivity.
  - destruct (Nat.ltb_spec lr (n_coeffs nd)); [reflexivity|]. rewrite (proj2 (Nat.ltb_lt lw _)) by lia. reflexivity.
Qed.
(** 2^64 derivatives: the number wraps to zero and the weight of order zero is read from an empty vector. *)
Lemma c113_orders_zero : forall (T V : Type) (o : SOps T) (ov : VOps T V) (MAXB limit limit_w limit_r : nat) (r : rspline T V) (xs : list T) (orders : list nat),
  w64 (n_coeffs orders) = 0 ->
  R_EvaluateDerivative_64 MAXB limit limit_w r xs orders = UB /\ R_BasisFunctionsDerivatives_64 MAXB limit_w limit_r r xs orders = UB.
Proof.
  intros T V o ov MAXB lv lw lr r xs nd HF. unfold R_EvaluateDerivative_64, R_BasisFunctionsDerivatives_64. rewrite global_self. cbn [bind]. cbv zeta. rewrite number_64, HF.
  split; reflexivity.
Qed.
(** The number of derivatives wraps to one: the value itself is returned. *)
Lemma local_zero nd : w64 (n_coeffs nd) <> 0 -> local_ids_64 nd 0 = Ok (repeat 0 (length nd)).
Proof.
  intros H. unfold local_ids_64.
  match goal with |- bind (for_up _ ?n ?f ?a) _ = _ => destruct (for_up_inv (fun _ '((u, v) : list nat * nat) => u = repeat 0 (length nd) /\ v = 0) f n 0 a) as ((u & v) & -> & -> & _) end; [split; reflexivity| |reflexivity].
  intros i (u & v) Hi (-> & ->). rewrite (get_ok 0) by lia. cbn [bind]. destruct (Nat.eqb_spec (nth i nd 0) 0); [eexists; split; [reflexivity|split; reflexivity]|].
  unfold mod64, div64. destruct (Nat.eqb_spec (w64 (nth i nd 0 + 1)) 0) as [H0|H0].
  { exfalso. apply H. rewrite (n_coeffs_split nd i), (skipn_cons_nth 0), n_coeffs_cons by lia. replace (S (nth i nd 0)) with (nth i nd 0 + 1) by lia.
    rewrite <- w64_mul_r, <- (w64_mul_l (nth i nd 0 + 1)), H0. cbn [Nat.mul]. change (w64 0) with 0. rewrite Nat.mul_0_r. reflexivity. }
  rewrite Nat.mod_0_l by auto. cbn [bind]. rewrite set_ok by (rewrite repeat_length; lia). cbn [bind]. change (w64_sub 0 0) with 0. rewrite Nat.div_0_l by auto. cbn [bind].
  eexists; split; [reflexivity|]. split; [|reflexivity]. apply (list_ext 0); [rewrite length_upd; reflexivity|]. intros j Hj. rewrite length_upd, repeat_length in Hj.
  rewrite nth_upd by (rewrite repeat_length; lia). destruct (j =? i); rewrite ?nth_repeat; reflexivity.
Qed.
Lemma c113_orders_one : forall (T V : Type) (o : SOps T) (ov : VOps T V) (F : SField T) (M : VMod T V) (MAXB limit limit_w : nat) (r : rspline T V) (xs : list T) (orders : list nat),
  MAXB <= 68 -> rwf r -> rdomain r xs -> length orders = length (rdegrees r) -> Forall (fun p => p < MAXB) (rdegrees r) ->
  1 <= limit -> n_coeffs (rdegrees r) <= limit_w -> w64 (n_coeffs orders) = 1 ->
  exists v, R_Evaluate r xs = Ok v /\ R_EvaluateDerivative_64 MAXB limit limit_w r xs orders = Ok v.
Proof.
  intros T V o ov F M MAXB lv lw r xs nd HB Wr HX HO HM H1 HL HN. pose proof (n_coeffs_pos (rdegrees r)) as Hp. exists (rvalue r xs). split; [apply R_Evaluate_ok; auto|].
  pose proof Wr as (Wu & Ww & D). pose proof HX as (Lx & HW).
  unfold R_EvaluateDerivative_64. rewrite global_self. cbn [bind]. cbv zeta. rewrite number_64, HN.
  rewrite (proj2 (Nat.ltb_ge lv 1)), (proj2 (Nat.ltb_ge lw 1)) by lia. cbn [for_up]. rewrite local_zero by lia. cbn [bind]. rewrite HO.
  rewrite (evalderiv_64 MAXB lw HB (weighted_spline r) xs _ (value_at (weighted_spline r) xs) (proj1 Wu) HL).
  2:{ rewrite EvaluateDerivative_ok; auto; [|rewrite repeat_length; reflexivity]. f_equal. exact (dmbez_0 (rdegrees r) xs (fun i => nth i (control_points (weighted_spline r)) v0) Lx). }
  cbn [bind repeat]. unfold set at 1. cbn [length Nat.ltb Nat.leb bind upd_list].
  rewrite (evalderiv_64 (V := T) MAXB lw HB (weight_function r) xs _ (value_at (weight_function r) xs) (proj1 Ww)).
  2:{ rewrite D. exact HL. }
  2:{ rewrite EvaluateDerivative_ok; rewrite ?D; auto; [|rewrite repeat_length; reflexivity]. f_equal. unfold value_at. rewrite D. exact (dmbez_0 (V := T) (rdegrees r) xs (fun i => nth i (control_points (weight_function r)) s0) Lx). }
  cbn [bind repeat]. unfold set at 1. cbn [length Nat.ltb Nat.leb bind upd_list]. unfold get at 1. cbn [nth_error bind].
  rewrite divS_ok by auto. cbn [bind]. unfold leibniz_loop_64. cbn [for_up]. rewrite local_zero by lia. cbn [bind repeat]. unfold get at 1. cbn [nth_error bind].
  unfold set at 1. cbn [length Nat.ltb Nat.leb bind upd_list]. unfold get at 1. cbn [nth_error bind]. unfold set at 1. cbn [length Nat.ltb Nat.leb bind upd_list].
  change (w64_sub 1 1) with 0. reflexivity.
Qed.
(** Orders for which this happens: the second derivative in one direction and one of a very high order in the
    other, of a constant. *)
Lemma c113_orders_refuted : forall (T V : Type) (o : SOps T) (ov : VOps T V) (F : SField T) (M : VMod T V) (MAXB limit limit_w : nat) (c : V) (x y : T) (k : nat),
  1 <= MAXB -> MAXB <= 68 -> 1 <= limit -> 1 <= limit_w -> Z.of_nat k = 12297829382473034410%Z ->
  let u : spline V := mkSpline [0; 0] 1 [1; 1] [c] in
  let w : spline T := mkSpline [0; 0] 1 [1; 1] [s1] in
  exists r : rspline T V, R_mk u w = Ok r /\ rwf r /\ (forall xs : list T, length xs = 2 -> R_Evaluate r xs = Ok c) /\
    (Z.of_nat k < 2 ^ 64)%Z /\ R_EvaluateDerivative_64 MAXB limit limit_w r [x; y] [2; k] = Ok c.
Proof.
  intros T V o ov F M MAXB lv lw c x y k HM HB H1 H2 Hk u w. set (r := mkR u w).
  assert (Wr : rwf r) by (repeat split; discriminate).
  assert (VW : forall xs : list T, length xs = 2 -> value_at w xs = s1).
  { intros [|a [|b [|]]] L; try discriminate. enough (E : Evaluate w [a; b] = Ok s1) by (rewrite Evaluate_value in E by (auto; apply Wr); injection E; auto). reflexivity. }
  assert (VU : forall xs : list T, length xs = 2 -> value_at u xs = c).
  { intros [|a [|b [|]]] L; try discriminate. enough (E : Evaluate u [a; b] = Ok c) by (rewrite Evaluate_value in E by (auto; apply Wr); injection E; auto). reflexivity. }
  assert (DX : forall xs : list T, length xs = 2 -> rdomain r xs).
  { intros xs L. split; [exact L|]. cbn [weight_function r]. rewrite VW by auto. apply s1_neq0. }
  assert (EV : forall xs : list T, length xs = 2 -> R_Evaluate r xs = Ok c).
  { intros xs L. rewrite R_Evaluate_ok by auto. f_equal. unfold rvalue. cbn [weight_function weighted_spline r]. rewrite VW, VU by auto.
    rewrite sdiv_one. apply vm_1. }
  exists r. split; [reflexivity|]. split; [exact Wr|]. split; [exact EV|]. split; [lia|].
  destruct (c113_orders_one T V o ov F M MAXB lv lw r [x; y] [2; k] HB Wr (DX [x; y] eq_refl) eq_refl) as (v & Ev & Ed).
  - repeat constructor; lia.
  - exact H1.
  - exact H2.
  - apply Nat2Z.inj. rewrite w64_Z. change (n_coeffs [2; k]) with (S 2 * (S k * 1)). rewrite !Nat2Z.inj_mul, (Nat2Z.inj_succ k), Hk. reflexivity.
  - rewrite (EV [x; y] eq_refl) in Ev. injection Ev as <-. exact Ed.
Qed.
