(** Arithmetic and refinement of rational splines. *)
From Coq Require Import Arith Lia List ZArith NArith Bool Ring Field QArith Qcanon.
From Verif Require Import Prelude Scalar Spec SpecSpline Sums Order Coord ModelBasis ModelSpline ModelPoint
  Examples ProofIndex ProofBasis ProofEval ProofElevate ProofUnique ClaimsA ProofArith ClaimsB ProofCube ClaimsC
  ProofMul ProofSplit ClaimsD ProofCompose ModelRational SpecRational ProofRational.
Import ListNotations.
Local Open Scope nat_scope.

Lemma list_eqb_true {A} (e : A -> A -> bool) (l m : list A) :
  (forall a b, e a b = true -> a = b) -> list_eqb e l m = true -> l = m.
Proof.
  intros H. revert m; induction l; intros [|b m]; simpl; try discriminate; auto.
  rewrite andb_true_iff. intros (A1 & A2). f_equal; auto.
Qed.

Lemma map2_add_comm l m : map2 Nat.add l m = map2 Nat.add m l.
Proof. revert m; induction l; intros [|b m]; simpl; auto. f_equal; [lia|apply IHl]. Qed.

Lemma max_degs_self l : max_degs l l = l.
Proof. apply max_degs_le. apply le_degs_refl. Qed.

Lemma le_degs_add l m : length l = length m -> le_degs l (map2 Nat.add l m).
Proof. revert m; induction l; intros [|b m] H; try discriminate; simpl; constructor; [lia|apply IHl; simpl in H; lia]. Qed.

Lemma list_max_le l m : le_degs l m -> list_max l <= list_max m.
Proof. induction 1; simpl; lia. Qed.

Section R.
Context {T V : Type} {o : SOps T} {ov : VOps T V} {F : SField T} {M : VMod T V}.
Add Field Tfield : (@sf_th T o F).
Add Ring Ering : (@ext_ring T V o ov F M).
Ltac vring := to_ext; ring.

Lemma spline_eqb_true (a b : spline T) : spline_eqb a b = true ->
  degrees a = degrees b /\ control_points a = control_points b.
Proof.
  unfold spline_eqb. destruct (list_eqb Nat.eqb _ _) eqn:E; [|discriminate]. intros E2.
  apply list_eqb_eq in E. apply list_eqb_true in E2; auto. intros x y. apply (vm_eqb x y).
Qed.

Lemma spline_eqb_value (a b : spline T) xs : spline_eqb a b = true -> value_at a xs = value_at b xs.
Proof. intros H. destruct (spline_eqb_true a b H) as (H1 & H2). unfold value_at. now rewrite H1, H2. Qed.

(** The quotient of sums / of products. *)
Lemma quot_sum (op : V -> V -> V) (a b : V) (w v : T) : (op = vadd \/ op = vsub) -> w <> s0 -> v <> s0 ->
  vscale (sdiv s1 (smul w v)) (op (vscale v a) (vscale w b)) =
  op (vscale (sdiv s1 w) a) (vscale (sdiv s1 v) b).
Proof.
  intros Hop Hw Hv.
  assert (A : vscale (sdiv s1 (smul w v)) (vscale v a) = vscale (sdiv s1 w) a).
  { rewrite <- vm_mul. f_equal. field. auto. }
  assert (B : vscale (sdiv s1 (smul w v)) (vscale w b) = vscale (sdiv s1 v) b).
  { rewrite <- vm_mul. f_equal. field. auto. }
  destruct Hop as [-> | ->].
  - rewrite vm_dr, A, B. reflexivity.
  - rewrite <- A, <- B. vring.
Qed.

Lemma add_same fuel (a b : spline V) : wf a -> wf b -> degrees b = degrees a ->
  (Z.of_nat (n_coeffs (degrees a)) < 2 ^ 31)%Z -> list_max (degrees a) + 1 < fuel ->
  exists c, spline_add fuel a b = Ok c /\ spline_add_assign fuel a b = Ok c /\ wf c /\ degrees c = degrees a /\
    forall xs : list T, length xs = length (degrees a) -> value_at c xs = vadd (value_at a xs) (value_at b xs).
Proof.
  intros Ha Hb Hd Hn Hf.
  assert (Hm : max_degs (degrees a) (degrees b) = degrees a) by (rewrite Hd; apply max_degs_self).
  destruct (add_assign_ok fuel a b) as (c & E & Hc & Dc & HV); auto; try (rewrite Hm; auto; lia); try congruence.
  destruct (add_ok fuel a b) as (c' & E1 & E2); auto; try (rewrite Hm; auto; lia); try congruence; try lia.
  assert (c' = c) by congruence. subst c'. exists c. split; auto. split; auto. split; auto. split; [congruence|auto].
Qed.

Lemma sub_same fuel (a b : spline V) : wf a -> wf b -> degrees b = degrees a ->
  (Z.of_nat (n_coeffs (degrees a)) < 2 ^ 31)%Z -> list_max (degrees a) + 1 < fuel ->
  exists c, spline_sub fuel a b = Ok c /\ spline_sub_assign fuel a b = Ok c /\ wf c /\ degrees c = degrees a /\
    forall xs : list T, length xs = length (degrees a) -> value_at c xs = vsub (value_at a xs) (value_at b xs).
Proof.
  intros Ha Hb Hd Hn Hf.
  assert (Hm : max_degs (degrees a) (degrees b) = degrees a) by (rewrite Hd; apply max_degs_self).
  destruct (sub_assign_ok fuel a b) as (c & E & Hc & Dc & HV); auto; try (rewrite Hm; auto; lia); try congruence.
  destruct (sub_ok fuel a b) as (c' & E1 & Hc' & Dc' & HV'); auto; try lia.
  { rewrite Hd. apply le_degs_refl. }
  assert (c' = c).
  { apply (spline_unique (T := T)); auto; try congruence. intros xs HX. rewrite HV, HV' by congruence. reflexivity. }
  subst c'. exists c. do 3 (split; [assumption|]). split; [congruence|auto].
Qed.

Section Arith.
Context (MAXB : nat) (HB : MAXB <= 68).
Context (r s : rspline T V) (Hr : rwf r) (Hs : rwf s).
Context (HL : length (rdegrees s) = length (rdegrees r)).
Context (HM : Forall (fun p => p < MAXB) (map2 Nat.add (rdegrees r) (rdegrees s))).
Context (Hsz : (Z.of_nat (n_coeffs (map2 Nat.add (rdegrees r) (rdegrees s))) < 2 ^ 31)%Z).

Lemma mul_vs_ok : exists a, spline_mul_vs MAXB (weighted_spline r) (weight_function s) = Ok a /\ wf a /\
  degrees a = map2 Nat.add (rdegrees r) (rdegrees s) /\
  forall xs : list T, length xs = length (rdegrees r) ->
    value_at a xs = vscale (value_at (weight_function s) xs) (value_at (weighted_spline r) xs).
Proof.
  destruct Hr as (Hu & Hw & Hd). destruct Hs as (Hu2 & Hw2 & Hd2). unfold rdegrees in *.
  destruct (spline_mul_ok (fun (p : V) (c : T) => vscale c p) MAXB HB (weighted_spline r) (weight_function s))
    as (a & E & Ha & Da & HV); auto; try congruence.
  exists a. split; [exact E|]. split; auto. split; [congruence|]. exact HV.
Qed.

Lemma mul_sv_ok : exists a, spline_mul_sv MAXB (weight_function r) (weighted_spline s) = Ok a /\ wf a /\
  degrees a = map2 Nat.add (rdegrees r) (rdegrees s) /\
  forall xs : list T, length xs = length (rdegrees r) ->
    value_at a xs = vscale (value_at (weight_function r) xs) (value_at (weighted_spline s) xs).
Proof.
  destruct Hr as (Hu & Hw & Hd). destruct Hs as (Hu2 & Hw2 & Hd2). unfold rdegrees in *.
  destruct (spline_mul_ok (fun (c : T) (p : V) => vscale c p) MAXB HB (weight_function r) (weighted_spline s))
    as (a & E & Ha & Da & HV); auto; try congruence.
  exists a. split; [exact E|]. split; auto. split; [congruence|].
  intros xs HX. apply HV. congruence.
Qed.

Lemma mul_ww_ok : exists a, spline_mul_ss MAXB (weight_function r) (weight_function s) = Ok a /\ wf a /\
  degrees a = map2 Nat.add (rdegrees r) (rdegrees s) /\
  forall xs : list T, length xs = length (rdegrees r) ->
    value_at a xs = smul (value_at (weight_function r) xs) (value_at (weight_function s) xs).
Proof.
  destruct Hr as (Hu & Hw & Hd). destruct Hs as (Hu2 & Hw2 & Hd2). unfold rdegrees in *.
  destruct (mul_ss_ok MAXB HB (weight_function r) (weight_function s))
    as (a & E & Ha & Da & HV); auto; try congruence.
  exists a. split; [exact E|]. split; auto. split; [congruence|].
  intros xs HX. apply HV. congruence.
Qed.

Lemma size_r : (Z.of_nat (n_coeffs (rdegrees r)) < 2 ^ 31)%Z.
Proof.
  pose proof (n_coeffs_mono (rdegrees r) _ (le_degs_add (rdegrees r) (rdegrees s) (eq_sym HL))). lia.
Qed.
Lemma max_r : list_max (rdegrees r) <= list_max (map2 Nat.add (rdegrees r) (rdegrees s)).
Proof. apply list_max_le. apply le_degs_add. auto. Qed.

Definition combined (op : V -> V -> V) (c : rspline T V) : Prop :=
  rwf c /\ (rdegrees c = rdegrees r \/ rdegrees c = map2 Nat.add (rdegrees r) (rdegrees s)) /\
  forall xs : list T, rdomain r xs -> rdomain s xs -> rdomain c xs /\ rvalue c xs = op (rvalue r xs) (rvalue s xs).

Lemma R_add_sub_ok fuel : list_max (map2 Nat.add (rdegrees r) (rdegrees s)) + 1 < fuel ->
  (exists c, R_add MAXB fuel r s = Ok c /\ R_add_assign MAXB fuel r s = Ok c /\ combined vadd c) /\
  (exists c, R_sub MAXB fuel r s = Ok c /\ R_sub_assign MAXB fuel r s = Ok c /\ combined vsub c).
Proof.
  intros Hf. unfold R_add, R_add_assign, R_sub, R_sub_assign.
  pose proof Hr as (Hu & Hw & Hd). pose proof Hs as (Hu2 & Hw2 & Hd2).
  pose proof size_r as Hszr. pose proof max_r as Hmr. unfold rdegrees in *.
  destruct (spline_eqb (weight_function r) (weight_function s)) eqn:E.
  - destruct (spline_eqb_true _ _ E) as (Ed & Ec).
    assert (Edd : degrees (weighted_spline s) = degrees (weighted_spline r)) by congruence.
    assert (C : forall op c, (op = vadd \/ op = vsub) -> wf c -> degrees c = degrees (weighted_spline r) ->
      (forall xs : list T, length xs = length (degrees (weighted_spline r)) ->
         value_at c xs = op (value_at (weighted_spline r) xs) (value_at (weighted_spline s) xs)) ->
      combined op (mkR c (weight_function r))).
    { intros op c Hop Hc Dc HV. split; [|split].
      - split; [|split]; cbn; auto. congruence.
      - left. exact Dc.
      - intros xs (HX & H0) _. unfold rdegrees in HX. split.
        + split; [unfold rdegrees; cbn; congruence|exact H0].
        + unfold rvalue. cbn [weighted_spline weight_function]. rewrite HV by exact HX.
          rewrite (spline_eqb_value _ _ xs E). destruct Hop as [-> | ->]; vring. }
    split.
    + destruct (add_same fuel (weighted_spline r) (weighted_spline s)) as (c & E1 & E2 & Hc & Dc & HV); auto; try lia.
      rewrite E1, E2. cbn [bind]. rewrite R_mk_ok by congruence. exists (mkR c (weight_function r)). auto.
    + destruct (sub_same fuel (weighted_spline r) (weighted_spline s)) as (c & E1 & E2 & Hc & Dc & HV); auto; try lia.
      rewrite E1, E2. cbn [bind]. rewrite R_mk_ok by congruence. exists (mkR c (weight_function r)). auto.
  - destruct mul_vs_ok as (a & Ea & Ha & Da & Va). destruct mul_sv_ok as (b & Eb & Hb & Db & Vb).
    destruct mul_ww_ok as (w & Ew & Hww & Dw & Vw). unfold rdegrees in *. rewrite Ea, Eb, Ew. cbn [bind].
    assert (C : forall op c, (op = vadd \/ op = vsub) -> wf c -> degrees c = degrees a ->
      (forall xs : list T, length xs = length (degrees a) -> value_at c xs = op (value_at a xs) (value_at b xs)) ->
      combined op (mkR c w)).
    { intros op c Hop Hc Dc HV. split; [|split].
      - split; [|split]; cbn; auto. congruence.
      - right. unfold rdegrees. cbn. congruence.
      - intros xs (HX & H0) (_ & H1). unfold rdegrees in *. split.
        + split; unfold rdegrees; cbn [weighted_spline weight_function].
          * rewrite Dc, Da, length_map2_add; auto.
          * rewrite Vw by auto. intros C. apply H0.
            replace (value_at (weight_function r) xs) with
              (sdiv (smul (value_at (weight_function r) xs) (value_at (weight_function s) xs))
                    (value_at (weight_function s) xs)) by (field; auto).
            rewrite C. field. auto.
        + unfold rvalue. cbn [weighted_spline weight_function].
          rewrite HV by (rewrite Da, length_map2_add; auto). rewrite Va, Vb, Vw by auto. apply quot_sum; auto. }
    split.
    + destruct (add_same fuel a b) as (c & E1 & E2 & Hc & Dc & HV); auto; try congruence; try (rewrite Da; auto; lia).
      rewrite E1, E2. cbn [bind]. rewrite R_mk_ok by congruence. exists (mkR c w). auto.
    + destruct (sub_same fuel a b) as (c & E1 & E2 & Hc & Dc & HV); auto; try congruence; try (rewrite Da; auto; lia).
      rewrite E1, E2. cbn [bind]. rewrite R_mk_ok by congruence. exists (mkR c w). auto.
Qed.
End Arith.

(** ** Refinement *)
Lemma R_OrderElevate_ok (r : rspline T V) k : rwf r -> k < length (rdegrees r) ->
  (Z.of_nat (n_coeffs (upd_list (rdegrees r) k (S (nth k (rdegrees r) 0%nat)))) < 2 ^ 31)%Z ->
  exists r', R_OrderElevate r k = Ok r' /\ rwf r' /\
    rdegrees r' = upd_list (rdegrees r) k (S (nth k (rdegrees r) 0)) /\
    forall xs, length xs = length (rdegrees r) ->
      value_at (weight_function r') xs = value_at (weight_function r) xs /\
      value_at (weighted_spline r') xs = value_at (weighted_spline r) xs.
Proof.
  intros (Hu & Hw & Hd) Hk Hn. unfold R_OrderElevate, rdegrees in *.
  destruct (OrderElevate_step (weighted_spline r) k Hu Hk Hn) as (u & Eu & Hu' & Du & Vu).
  destruct (OrderElevate_step (weight_function r) k) as (w & Ew & Hw' & Dw & Vw); auto; try (rewrite Hd; auto).
  rewrite Eu. cbn [bind]. rewrite Ew. cbn [bind]. rewrite R_mk_ok by congruence.
  eexists. split; [reflexivity|]. cbn [weighted_spline weight_function].
  split; [split; [|split]; cbn; congruence|]. split; [congruence|].
  intros xs HX. split; [apply Vw; congruence|apply Vu; auto].
Qed.

Context {O : SOrder T}.

(** [b] is the part of [r] with parameter [k] in [[l, m]]. *)
Definition rpiece (r b : rspline T V) (k : nat) (l m : T) : Prop :=
  piece (weighted_spline r) (weighted_spline b) k l m /\ piece (weight_function r) (weight_function b) k l m.

Lemma rpiece_wf r b k l m : rwf r -> rpiece r b k l m -> rwf b /\ rdegrees b = rdegrees r.
Proof.
  intros (Hu & Hw & Hd) ((H1 & H2 & _) & (H3 & H4 & _)). split; [|exact H2].
  split; [|split]; auto. congruence.
Qed.

Lemma rpiece_split (r b : rspline T V) k l m : rwf r -> k < length (rdegrees r) -> rpiece r b k l s1 ->
  slt l m -> slt m s1 ->
  exists b1 b2, R_SplitAtPosition b (sdiv (ssub m l) (ssub s1 l)) k = Ok [b1; b2] /\
    rpiece r b1 k l m /\ rpiece r b2 k m s1.
Proof.
  intros Hr Hk (HPu & HPw) Hlm Hm. pose proof Hr as (Hu & Hw & Hd). unfold rdegrees in *.
  destruct (piece_split _ _ k l m Hk HPu Hlm Hm) as (u1 & u2 & Eu & Pu1 & Pu2).
  destruct (piece_split (weight_function r) _ k l m ltac:(congruence) HPw Hlm Hm) as (w1 & w2 & Ew & Pw1 & Pw2).
  unfold R_SplitAtPosition. rewrite Eu. cbn [bind]. rewrite Ew. cbn [bind get nth_error].
  destruct Pu1 as (A1 & A2 & A3). destruct Pu2 as (B1 & B2 & B3).
  destruct Pw1 as (C1 & C2 & C3). destruct Pw2 as (D1 & D2 & D3).
  rewrite R_mk_ok by congruence. cbn [bind]. rewrite R_mk_ok by congruence. cbn [bind].
  eexists _, _. split; [reflexivity|]. split; (split; split; cbn; auto).
Qed.

Lemma rpiece_refl r k : rwf r -> k < length (rdegrees r) -> rpiece r r k s0 s1.
Proof. intros (Hu & Hw & Hd) Hk. unfold rdegrees in *. split; apply piece_refl; auto. congruence. Qed.

Lemma rpiece_first r k x : rwf r -> k < length (rdegrees r) -> slt s0 x -> slt x s1 ->
  exists a b, R_SplitAtPosition r x k = Ok [a; b] /\ rpiece r a k s0 x /\ rpiece r b k x s1.
Proof.
  intros Hr Hk H0 H1. destruct (rpiece_split r r k s0 x Hr Hk (rpiece_refl r k Hr Hk) H0 H1) as (a & b & E & PA & PB).
  exists a, b. split; [|auto]. rewrite <- E. f_equal. replace (ssub s1 s0) with (s1 : T) by ring. field. exact s1_neq0.
Qed.

Lemma R_Split_throw r x k : ~ (slt s0 x /\ slt x s1) -> R_SplitAtPosition r x k = Throw.
Proof. intros H. unfold R_SplitAtPosition. rewrite Split_throw by auto. reflexivity. Qed.

Definition rsplit_step (planes : list T) (k : nat) (i : nat) (st : list (rspline T V) * list (rspline T V)) :=
  let '(out, split) := st in
  do pi <- get planes i;
  do pm <- get planes (i - 1);
  do rel <- divS (ssub pi pm) (ssub s1 pm);
  do rest <- get split 1;
  do split <- R_SplitAtPosition rest rel k;
  do x <- get split 0;
  Ok (out ++ [x], split).

Lemma rsplit_loop_ok (r : rspline T V) planes k : rwf r -> k < length (rdegrees r) ->
  forall n lo out a b, 1 <= lo -> lo + n = length planes ->
  rpiece r b k (nth (lo - 1) planes s0) s1 ->
  (forall i, lo <= i < lo + n -> slt (nth (i - 1) planes s0) (nth i planes s0) /\ slt (nth i planes s0) s1) ->
  exists parts a' b', for_up lo n (rsplit_step planes k) (out, [a; b]) = Ok (out ++ parts, [a'; b']) /\
    length parts = n /\ rpiece r b' k (nth (lo + n - 1) planes s0) s1 /\
    forall i, i < n -> rpiece r (nth i parts r) k (nth (lo + i - 1) planes s0) (nth (lo + i) planes s0).
Proof.
  intros Hr Hk. induction n; intros lo out a b H1 Hlen Hb Hp.
  - exists [], a, b. rewrite app_nil_r, Nat.add_0_r. split; [reflexivity|]. split; auto. split; auto. intros; lia.
  - destruct (Hp lo ltac:(lia)) as (A1 & A2).
    destruct (rpiece_split r b k _ _ Hr Hk Hb A1 A2) as (b1 & b2 & E & P1 & P2).
    destruct (IHn (S lo) (out ++ [b1]) b1 b2) as (parts & a' & b' & E2 & L & PB & PP); try lia.
    { replace (S lo - 1) with lo by lia. auto. }
    { intros i Hi. apply Hp. lia. }
    exists (b1 :: parts), a', b'. split; [|split; [simpl; lia|split]].
    + cbn [for_up]. unfold rsplit_step at 1. rewrite !(get_ok s0) by lia. cbn [bind].
      rewrite divS_ok by (apply (rel_pos _ s0); exact (so_trans _ _ _ A1 A2)). cbn [bind get nth_error].
      rewrite E. cbn [bind get nth_error]. rewrite E2. rewrite <- app_assoc. reflexivity.
    + replace (lo + S n - 1) with (S lo + n - 1) by lia. auto.
    + intros [|i] Hi; [cbn [nth]; rewrite Nat.add_0_r; auto|]. cbn [nth].
      replace (lo + S i - 1) with (S lo + i - 1) by lia. replace (lo + S i) with (S lo + i) by lia.
      apply PP. lia.
Qed.

Lemma R_Positions_ok (r : rspline T V) planes k : rwf r -> k < length (rdegrees r) ->
  let bounds := s0 :: planes ++ [s1] in
  (forall i, S i < length bounds -> slt (nth i bounds s0) (nth (S i) bounds s0)) ->
  exists parts, R_SplitAtPositions r planes k = Ok parts /\ length parts = S (length planes) /\
    forall i, i <= length planes -> rpiece r (nth i parts r) k (nth i bounds s0) (nth (S i) bounds s0).
Proof.
  intros Hr Hk bounds HB.
  assert (HLb : length bounds = S (S (length planes))).
  { unfold bounds. simpl. rewrite app_length. simpl. lia. }
  assert (Hnth : forall i, i < length planes -> nth (S i) bounds s0 = nth i planes s0).
  { intros i Hi. unfold bounds. cbn [nth]. apply app_nth1. auto. }
  assert (Hlast : nth (S (length planes)) bounds s0 = s1).
  { unfold bounds. cbn [nth]. rewrite app_nth2 by lia. now rewrite Nat.sub_diag. }
  assert (Hinc : forall i, 1 <= i < length planes -> slt (nth (i - 1) planes s0) (nth i planes s0)).
  { intros i Hi. specialize (HB i ltac:(lia)). rewrite Hnth in HB by lia.
    replace i with (S (i - 1)) in HB at 1 by lia. rewrite Hnth in HB by lia. exact HB. }
  assert (H1 : forall j i, i + j + 1 = length planes -> slt (nth i planes s0) s1).
  { induction j; intros i Hi.
    - specialize (HB (S i) ltac:(lia)). rewrite Hnth in HB by lia.
      replace (S (S i)) with (S (length planes)) in HB by lia. rewrite Hlast in HB. exact HB.
    - apply (so_trans _ (nth (S i) planes s0)); [|apply IHj; lia].
      replace i with (S i - 1) at 1 by lia. apply Hinc. lia. }
  unfold R_SplitAtPositions. rewrite is_sorted_lt by auto. cbn [negb].
  destruct (Nat.eqb_spec (length planes) 0) as [E0|E0].
  { exists [r]. split; auto. split; [simpl; lia|]. intros i Hi. replace i with 0 by lia.
    rewrite E0 in Hlast. rewrite Hlast. cbn [nth bounds]. apply rpiece_refl; auto. }
  rewrite (get_ok s0) by lia. cbn [bind].
  assert (Hp0 : slt s0 (nth 0 planes s0)).
  { specialize (HB 0 ltac:(lia)). rewrite Hnth in HB by lia. exact HB. }
  destruct (rpiece_first r k (nth 0 planes s0) Hr Hk Hp0 ltac:(apply (H1 (length planes - 1)); lia))
    as (a & b & E & PA & PB).
  rewrite E. cbn [bind get nth_error].
  destruct (rsplit_loop_ok r planes k Hr Hk (length planes - 1) 1 [a] a b) as (parts & a' & b' & EL & LP & PL & PP); try lia; auto.
  { intros i Hi. split; [apply Hinc; lia|]. apply (H1 (length planes - 1 - i)). lia. }
  change (for_up 1 (length planes - 1) (rsplit_step planes k) ([a], [a; b])) with
    (for_up 1 (length planes - 1) (fun i '(out, split) =>
      do pi <- get planes i; do pm <- get planes (i - 1); do rel <- divS (ssub pi pm) (ssub s1 pm);
      do rest <- get split 1; do split0 <- R_SplitAtPosition rest rel k; do x <- get split0 0; Ok (out ++ [x], split0))
      ([a], [a; b])) in EL.
  rewrite EL. cbn [bind get nth_error].
  exists (([a] ++ parts) ++ [b']). split; [reflexivity|]. split; [rewrite !app_length; simpl; lia|].
  intros i Hi. rewrite <- app_assoc. destruct i as [|i].
  - cbn [app nth]. rewrite Hnth by lia. exact PA.
  - cbn [app nth]. rewrite Hnth by lia. destruct (Nat.eq_dec (S i) (length planes)) as [Ei|Ei].
    + rewrite Ei, Hlast. rewrite app_nth2 by lia. replace (i - length parts) with 0 by lia. cbn [nth].
      replace i with (1 + (length planes - 1) - 1) by lia. exact PL.
    + rewrite app_nth1 by lia. rewrite Hnth by lia. specialize (PP i ltac:(lia)).
      replace (1 + i - 1) with i in PP by lia. exact PP.
Qed.
End R.

Section Prod.
Context {T V1 V2 V3 : Type} {o : SOps T} {o1 : VOps T V1} {o2 : VOps T V2} {o3 : VOps T V3}.
Context {F : SField T} {M1 : VMod T V1} {M2 : VMod T V2} {M3 : VMod T V3}.
Context (pmul : V1 -> V2 -> V3) {B : Bilinear pmul}.
Add Field Tfield4 : (@sf_th T o F).

Lemma R_mul_ok MAXB (r : rspline T V1) (s : rspline T V2) : MAXB <= 68 -> rwf r -> rwf s ->
  length (rdegrees s) = length (rdegrees r) ->
  Forall (fun p => p < MAXB) (map2 Nat.add (rdegrees r) (rdegrees s)) ->
  exists c, R_mul MAXB pmul r s = Ok c /\ rwf c /\ rdegrees c = map2 Nat.add (rdegrees r) (rdegrees s) /\
    forall xs : list T, rdomain r xs -> rdomain s xs ->
      rdomain c xs /\ rvalue c xs = pmul (rvalue r xs) (rvalue s xs).
Proof.
  intros HB (Hu & Hw & Hd) (Hu2 & Hw2 & Hd2) HL HM. unfold R_mul, rdegrees in *.
  destruct (spline_mul_ok pmul MAXB HB (weighted_spline r) (weighted_spline s)) as (u & Eu & Wu & Du & Vu); auto.
  destruct (mul_ss_ok MAXB HB (weight_function r) (weight_function s)) as (w & Ew & Ww & Dw & Vw); auto; try congruence.
  rewrite Eu. cbn [bind]. rewrite Ew. cbn [bind]. rewrite R_mk_ok by congruence.
  exists (mkR u w). split; auto. cbn [weighted_spline weight_function].
  split; [split; [|split]; cbn; congruence|]. split; [congruence|].
  intros xs (HX & H0) (_ & H1). unfold rdegrees in HX. split.
  - split; unfold rdegrees; cbn [weighted_spline weight_function].
    + rewrite Du, length_map2_add; auto.
    + rewrite Vw by congruence. intros C. apply H0.
      replace (value_at (weight_function r) xs) with
        (sdiv (smul (value_at (weight_function r) xs) (value_at (weight_function s) xs))
              (value_at (weight_function s) xs)) by (field; auto).
      rewrite C. field. auto.
  - unfold rvalue. cbn [weighted_spline weight_function]. rewrite Vu, Vw by congruence.
    rewrite (bl_scale_l (pmul := pmul)), (bl_scale_r (pmul := pmul)). rewrite <- vm_mul. f_equal. field. auto.
Qed.
End Prod.
