(** Claims about indexing, basis functions, evaluation and order elevation. *)
From Coq Require Import Arith Lia List ZArith NArith Bool Ring Field.
From Verif Require Import Prelude Scalar Spec SpecSpline Sums ModelBasis ModelSpline
  ProofIndex ProofBasis ProofEval ProofElevate Order.
Import ListNotations.

Lemma c01_index_bijection : forall (V : Type) (s : spline V), wf s ->
  (forall i, i < number_of_control_points s ->
     exists idx, LocalToGlobalIndex s i = Ok idx /\ valid_index (degrees s) idx /\
                 GlobalToLocalIndex s idx = Ok i) /\
  (forall idx, valid_index (degrees s) idx ->
     exists i, GlobalToLocalIndex s idx = Ok i /\ i < number_of_control_points s /\
               LocalToGlobalIndex s i = Ok idx /\ i = position (degrees s) idx).
Proof.
  intros V s Hw. pose proof Hw as (Hd & Hn & Ho & Hc). split.
  - intros i Hi. exists (index_of (degrees s) i). rewrite LocalToGlobal_ok by auto.
    split; [reflexivity|]. split; [apply index_of_valid|].
    rewrite GlobalToLocal_ok by (auto; rewrite length_index_of; auto).
    rewrite position_index_of by lia. reflexivity.
  - intros idx Hv. exists (position (degrees s) idx).
    rewrite GlobalToLocal_ok by (auto; apply valid_index_length; auto).
    split; [reflexivity|]. split; [rewrite Hn; apply position_lt; auto|].
    split; auto. rewrite LocalToGlobal_ok by auto. now rewrite index_of_position.
Qed.

Lemma c03_control_point_access : forall (V : Type) (s : spline V) idx, wf s ->
  valid_index (degrees s) idx ->
  (Z.of_nat (number_of_control_points s) <= 2 ^ 32)%Z ->
  (exists x, ControlPoint_variadic s idx = Ok x /\ ControlPoint s idx = Ok x /\
             nth_error (control_points s) (position (degrees s) idx) = Some x) /\
  (forall v, exists s', SetControlPoint_variadic s idx v = Ok s' /\
     SetControlPoint s idx v = Ok s' /\ wf s' /\ degrees s' = degrees s /\
     ControlPoint s' idx = Ok v /\
     forall idx', valid_index (degrees s) idx' -> idx' <> idx ->
       ControlPoint s' idx' = ControlPoint s idx').
Proof.
  intros V s idx Hw Hv Hb. pose proof Hw as (Hd & Hn & Ho & Hc). rewrite Hn in Hb.
  pose proof (position_lt _ _ Hv) as Hlt.
  assert (HG : forall (t : spline V) i, wf t -> degrees t = degrees s ->
    valid_index (degrees s) i -> ControlPoint t i = get (control_points t) (position (degrees s) i)).
  { intros t i Hwt Hdt Hi. unfold ControlPoint.
    rewrite GlobalToLocal_ok; auto; rewrite Hdt; auto. apply valid_index_length; auto. }
  assert (HV : VariadicPosition s idx = Ok (position (degrees s) idx)) by (apply VariadicPosition_ok; auto).
  split.
  - destruct (nth_error (control_points s) (position (degrees s) idx)) as [x|] eqn:E.
    2:{ apply nth_error_None in E. lia. }
    exists x. unfold ControlPoint_variadic. rewrite HV, HG by auto. cbn [bind]. unfold get. rewrite E. auto.
  - intros v. set (s' := with_cps s (upd_list (control_points s) (position (degrees s) idx) v)).
    assert (Hw' : wf s') by (apply with_cps_wf; auto; now rewrite length_upd).
    exists s'. split; [|split; [|split; [|split; [|split]]]]; auto.
    + unfold SetControlPoint_variadic. rewrite HV. cbn [bind]. rewrite set_ok by lia. reflexivity.
    + apply SetControlPoint_ok; auto.
    + rewrite HG by auto. simpl. rewrite (get_ok v) by (rewrite length_upd; lia).
      now rewrite nth_upd_same by lia.
    + intros idx' Hv' Hne. rewrite !HG by auto. simpl.
      assert (Hp : position (degrees s) idx' <> position (degrees s) idx).
      { intros E. apply Hne. rewrite <- (index_of_position (degrees s) idx'), <- (index_of_position (degrees s) idx) by auto.
        now rewrite E. }
      pose proof (position_lt _ _ Hv') as Hlt'.
      rewrite (get_ok v) by (rewrite length_upd; lia). rewrite nth_upd_other by auto.
      symmetry. apply get_ok. lia.
Qed.

Lemma c04_binomial_table : forall maxb n i, maxb <= 68 -> n < maxb -> i <= n ->
  choose maxb n i = Ok (binom n i).
Proof. intros. apply choose_ok; auto. Qed.

Lemma c04_binomial_factorial : forall n k, k <= n ->
  (binom n k * (N.of_nat (fact k) * N.of_nat (fact (n - k))) = N.of_nat (fact n))%N.
Proof.
  induction n; intros k Hk.
  - replace k with 0 by lia. reflexivity.
  - destruct k; [rewrite binom_n_0, Nat.sub_0_r; change (fact 0) with 1; lia|].
    rewrite binom_SS.
    destruct (Nat.eq_dec k n) as [->|].
    + rewrite binom_nn, binom_gt by lia. rewrite Nat.sub_diag. change (fact 0) with 1. lia.
    + pose proof (IHn k ltac:(lia)) as H1. pose proof (IHn (S k) ltac:(lia)) as H2.
      replace (S n - S k) with (n - k) by lia.
      replace (n - k) with (S (n - S k)) in * by lia.
      assert (Ef : forall m, N.of_nat (fact (S m)) = (N.of_nat (S m) * N.of_nat (fact m))%N).
      { intros m. rewrite <- Nat2N.inj_mul. f_equal. }
      assert (Es : N.of_nat (S n) = (N.of_nat (S k) + N.of_nat (S (n - S k)))%N) by lia.
      rewrite (Ef (n - S k)) in H1. rewrite (Ef k) in H2.
      rewrite (Ef n), (Ef k), (Ef (n - S k)), Es.
      replace ((N.of_nat (S k) + N.of_nat (S (n - S k))) * N.of_nat (fact n))%N with
        (N.of_nat (S k) * N.of_nat (fact n) + N.of_nat (S (n - S k)) * N.of_nat (fact n))%N by ring.
      rewrite <- H1 at 1. rewrite <- H2. ring.
Qed.

Lemma c05_bernstein_evaluate : forall (T : Type) (o : SOps T) (F : SField T) MAXB p (t : T),
  MAXB <= 68 -> p < MAXB ->
  exists r, BernsteinEvaluate MAXB p t = Ok r /\ length r = p + 1 /\
    forall i, i <= p ->
      nth i r s0 = smul (sofN (binom p i)) (smul (spow t i) (spow (ssub s1 t) (p - i))).
Proof.
  intros T o F MAXB p t HB Hp. rewrite (BernsteinEvaluate_ok MAXB HB p t Hp).
  eexists; split; [reflexivity|]. rewrite map_length, seq_length. split; [lia|].
  intros i Hi. rewrite nth_map_seq by lia. unfold bernstein.
  symmetry. apply (Rmul_assoc (F_R (sf_th (SField := F)))).
Qed.

(** Tensor product entries. *)
Lemma radix_bounds sz idx :
  Forall2 (fun n i => i < n) sz idx -> radix_position sz idx < fold_right Nat.mul 1 sz.
Proof. induction 1; simpl; [lia|]. nia. Qed.

Lemma tensor_at_radix {T} {o : SOps T} (fs : list (list T)) idx :
  Forall2 (fun f i => i < length f) fs idx ->
  tensor_at fs (radix_position (map (@length T) fs) idx) = sprod (pick s0 fs idx).
Proof.
  induction 1 as [|f i fs idx Hi Hv IH]; [reflexivity|].
  cbn [map radix_position tensor_at pick]. unfold sprod. cbn [fold_right]. fold (sprod (pick s0 fs idx)).
  replace (i + length f * radix_position (map (@length T) fs) idx)
    with (i + radix_position (map (@length T) fs) idx * length f) by lia.
  rewrite Nat.mod_add, Nat.div_add by lia. rewrite Nat.mod_small, Nat.div_small by lia.
  rewrite Nat.add_0_l, IH. reflexivity.
Qed.

Lemma c08_recursive_combine : forall (T : Type) (o : SOps T) (F : SField T) (fs : list (list T)),
  fs <> [] ->
  exists r, RecursiveCombine fs = Ok r /\ length r = prod (map (@length T) fs) /\
    forall idx, Forall2 (fun f i => i < length f) fs idx ->
      radix_position (map (@length T) fs) idx < length r /\
      nth (radix_position (map (@length T) fs) idx) r s0 = sprod (pick s0 fs idx).
Proof.
  intros T o F fs H. rewrite RecursiveCombine_ok by auto. eexists; split; [reflexivity|].
  rewrite map_length, seq_length. split; [reflexivity|]. intros idx Hv.
  assert (Hlt : radix_position (map (@length T) fs) idx < sizes fs).
  { unfold sizes. apply radix_bounds. clear H. induction Hv; simpl; constructor; auto. }
  split; auto. rewrite nth_map_seq by auto. apply tensor_at_radix. auto.
Qed.

Lemma c09_evaluate : forall (T V : Type) (o : SOps T) (ov : VOps T V) (F : SField T) (M : VMod T V)
  (s : spline V) (xs : list T), wf s -> length xs = length (degrees s) ->
  Evaluate s xs = Ok (bezier (degrees s) xs (fun i => nth i (control_points s) v0)).
Proof. intros. apply Evaluate_ok; auto. Qed.

Lemma c10_forward_evaluate : forall (T V : Type) (o : SOps T) (ov : VOps T V) (F : SField T) (M : VMod T V)
  MAXB (s : spline V) (xs : list T), MAXB <= 68 -> wf s -> length xs = length (degrees s) ->
  Forall (fun p => p < MAXB) (degrees s) ->
  ForwardEvaluate MAXB s xs = Evaluate s xs /\ is_ok (Evaluate s xs).
Proof.
  intros. rewrite ForwardEvaluate_ok, Evaluate_ok by auto. split; [reflexivity|]. eexists; reflexivity.
Qed.

Section Basis.
Context {T : Type} {o : SOps T} {F : SField T}.
Add Field Tfield : (@sf_th T o F).

Lemma basis_sum degs (xs : list T) :
  length xs = length degs -> ssum (n_coeffs degs) (basis_at degs xs) = s1.
Proof.
  intros HX. pose proof (bezier_flat (V := T) degs xs (fun _ => s1) HX) as E.
  rewrite bezier_const in E by auto. rewrite ssum_vsum.
  rewrite E at 1. symmetry. apply (vsum_ext (V := T)). intros i Hi. cbn. ring.
Qed.

Context {O : SOrder T}.
Lemma basis_nonneg degs (xs : list T) i :
  Forall in_unit xs -> sle s0 (basis_at degs xs i).
Proof.
  intros H. revert degs i; induction H; intros [|p degs] i; simpl; try apply sle_0_1.
  apply sle_mul_0; auto. apply bernstein_nonneg; auto.
Qed.
End Basis.

Lemma c06_partition_of_unity : forall (T V : Type) (o : SOps T) (ov : VOps T V) (F : SField T) MAXB
  (s : spline V) (xs : list T), MAXB <= 68 -> wf s -> length xs = length (degrees s) ->
  Forall (fun p => p < MAXB) (degrees s) ->
  exists r, BasisFunctions MAXB s xs = Ok r /\ length r = number_of_control_points s /\
    fold_right sadd s0 r = s1.
Proof.
  intros T V o ov F MAXB s xs HB Hw HX Hp. rewrite (BasisFunctions_ok MAXB HB) by auto.
  eexists; split; [reflexivity|]. rewrite map_length, seq_length.
  destruct Hw as (_ & -> & _). split; auto.
  rewrite <- (basis_sum (degrees s) xs HX).
  generalize (n_coeffs (degrees s)) as n. generalize (basis_at (degrees s) xs) as f. clear - F.
  intros f n. assert (Hr := F_R (sf_th (SField := F))).
  assert (Ea : forall l (a : T), fold_right sadd s0 (l ++ [a]) = sadd (fold_right sadd s0 l) a).
  { induction l; intros b; simpl.
    - rewrite (Radd_comm Hr). auto.
    - rewrite IHl. rewrite (Radd_assoc Hr). auto. }
  induction n; [reflexivity|].
  rewrite seq_S, map_app. cbn [map ssum Nat.add]. rewrite Ea, IHn. reflexivity.
Qed.

Lemma c06_non_negative : forall (T V : Type) (o : SOps T) (ov : VOps T V) (F : SField T) (O : SOrder T) MAXB
  (s : spline V) (xs : list T), MAXB <= 68 -> wf s -> length xs = length (degrees s) ->
  Forall (fun p => p < MAXB) (degrees s) -> Forall in_unit xs ->
  exists r, BasisFunctions MAXB s xs = Ok r /\ Forall (fun b => sle s0 b) r.
Proof.
  intros T V o ov F O MAXB s xs HB Hw HX Hp Hu. rewrite (BasisFunctions_ok MAXB HB) by auto.
  eexists; split; [reflexivity|]. apply Forall_forall. intros b Hb. apply in_map_iff in Hb.
  destruct Hb as (i & <- & _). apply basis_nonneg. auto.
Qed.

Lemma corner_value (T V : Type) (o : SOps T) (ov : VOps T V) (F : SField T) (M : VMod T V)
  degs (bs : list bool) (f : nat -> V) :
  length bs = length degs ->
  bezier degs (map (fun b : bool => if b then (s1 : T) else s0) bs) f =
  f (position degs (map2 (fun p (b : bool) => if b then p else 0) degs bs)).
Proof.
  revert bs f; induction degs as [|p degs IH]; intros [|b bs] f H; try discriminate; [reflexivity|].
  simpl in H. cbn [map bezier map2 position].
  rewrite (vsum_single (S p) (if b then p else 0)).
  - rewrite IH by lia. destruct b.
    + rewrite bernstein_at_1, Nat.eqb_refl by lia. apply vm_1.
    + rewrite bernstein_at_0. cbn. apply vm_1.
  - destruct b; lia.
  - intros i Hi Hne. destruct b.
    + rewrite bernstein_at_1 by lia. rewrite (proj2 (Nat.eqb_neq i p)) by auto. apply vscale_0_l.
    + rewrite bernstein_at_0. rewrite (proj2 (Nat.eqb_neq i 0)) by auto. apply vscale_0_l.
Qed.

Lemma corner_valid degs (bs : list bool) :
  length bs = length degs ->
  valid_index degs (map2 (fun p (b : bool) => if b then p else 0) degs bs).
Proof.
  revert bs; induction degs; intros [|b bs] H; try discriminate; constructor.
  - destruct b; lia.
  - apply IHdegs. simpl in H. lia.
Qed.

Lemma c11_corner_interpolation : forall (T V : Type) (o : SOps T) (ov : VOps T V) (F : SField T) (M : VMod T V)
  (s : spline V) (bs : list bool), wf s -> length bs = length (degrees s) ->
  exists x,
    Evaluate s (map (fun b : bool => if b then (s1 : T) else s0) bs) = Ok x /\
    ControlPoint s (map (fun pb => if snd pb : bool then fst pb else 0) (combine (degrees s) bs)) = Ok x.
Proof.
  intros T V o ov F M s bs Hw HL.
  assert (Em : map (fun pb => if snd pb : bool then fst pb else 0) (combine (degrees s) bs) =
               map2 (fun p (b : bool) => if b then p else 0) (degrees s) bs).
  { clear Hw. revert bs HL. induction (degrees s); intros [|b bs] H; try discriminate; simpl; auto.
    f_equal. apply IHl. simpl in H. lia. }
  rewrite Em. rewrite Evaluate_ok by (auto; rewrite map_length; auto).
  rewrite corner_value by auto. eexists; split; [reflexivity|].
  apply ControlPoint_ok; auto. apply corner_valid; auto.
Qed.

Lemma upd_at_upd {A} (d : A) k f l : k < length l -> upd_at k f l = upd_list l k (f (nth k l d)).
Proof.
  revert k; induction l; intros k H; simpl in H; [lia|]. destruct k; simpl; auto. f_equal. apply IHl. lia.
Qed.
Lemma length_upd_at {A} k (f : A -> A) l : length (upd_at k f l) = length l.
Proof. revert k; induction l; intros [|k]; simpl; auto. Qed.

Lemma c13_order_elevate : forall (T V : Type) (o : SOps T) (ov : VOps T V) (F : SField T) (M : VMod T V)
  (s : spline V) k, wf s -> k < length (degrees s) ->
  (Z.of_nat (n_coeffs (upd_at k S (degrees s))) < 2 ^ 31)%Z ->
  exists s', OrderElevate s k = Ok s' /\ wf s' /\ degrees s' = upd_at k S (degrees s) /\
    forall xs : list T, length xs = length (degrees s) ->
      Evaluate s' xs = Evaluate s xs /\ is_ok (Evaluate s xs).
Proof.
  intros T V o ov F M s k Hw Hk Hs. rewrite (upd_at_upd 0) in * by auto.
  replace (S (nth k (degrees s) 0)) with (nth k (degrees s) 0 + 1) in * by lia.
  rewrite (OrderElevate_ok s k Hw Hk Hs). eexists; split; [reflexivity|].
  set (degs' := upd_list (degrees s) k (nth k (degrees s) 0 + 1)) in *.
  assert (Hw' : wf (mk degs' (elev_points (n_coeffs (firstn k (degrees s))) (nth k (degrees s) 0) (n_coeffs degs') (control_points s)))).
  { apply wf_mk.
    - intros E. apply (f_equal (@length nat)) in E. unfold degs' in E. rewrite length_upd in E. simpl in E. lia.
    - unfold elev_points. now rewrite map_length, seq_length. }
  split; auto. split; [reflexivity|]. intros xs HX.
  assert (HL : length degs' = length (degrees s)) by apply length_upd.
  rewrite Evaluate_ok by (auto; simpl; lia). rewrite Evaluate_ok by auto. cbn [mk degrees control_points].
  split; [|eexists; reflexivity]. f_equal. apply elev_points_bezier; auto. apply Hw.
Qed.

Lemma c04_bound_sharp :
  choose 69 68 34 <> Ok (binom 68 34) /\ (2 ^ 64 <= binom 68 34)%N.
Proof.
  assert (E : binom 68 34 = 28453041475240576740%N).
  { rewrite <- nth_pascal. vm_compute. reflexivity. }
  rewrite E. split; vm_compute; congruence.
Qed.
