(** Products of splines. *)
From Coq Require Import Arith Lia List ZArith NArith Bool Ring Field.
From Verif Require Import Prelude Scalar Spec SpecSpline Sums Coord ModelBasis ModelSpline
  ProofIndex ProofBasis ProofEval ProofElevate ProofUnique ProofArith.
Import ListNotations.
Local Open Scope nat_scope.

Lemma binom_mono_S n j : (binom n j <= binom (S n) j)%N.
Proof. destruct j; [rewrite !binom_n_0|rewrite binom_SS]; lia. Qed.
Lemma binom_mono n m j : (binom n j <= binom (m + n) j)%N.
Proof.
  induction m; [simpl Nat.add; lia|]. change (S m + n) with (S (m + n)).
  pose proof (binom_mono_S (m + n) j). lia.
Qed.
Lemma binom_vander m n i j : (binom m i * binom n j <= binom (m + n) (i + j))%N.
Proof.
  revert i; induction m; intros i.
  - destruct i; [rewrite binom_n_0; simpl Nat.add; lia|]. rewrite (binom_gt 0) by lia. lia.
  - destruct i.
    + rewrite binom_n_0. pose proof (binom_mono n (S m) j). change (0 + j) with j. lia.
    + rewrite binom_SS. change (S m + n) with (S (m + n)). change (S i + j) with (S (i + j)).
      rewrite binom_SS. pose proof (IHm i). pose proof (IHm (S i)) as H2. change (S i + j) with (S (i + j)) in H2. lia.
Qed.

Lemma upd_list_same {A} (d : A) (l : list A) i : i < length l -> upd_list l i (nth i l d) = l.
Proof.
  intros H. apply (list_ext d); [apply length_upd|]. intros j Hj. rewrite length_upd in Hj.
  rewrite nth_upd by auto. destruct (Nat.eqb_spec j i) as [->|]; auto.
Qed.

(** Bilinear products. *)
Class Bilinear {T V1 V2 V3 : Type} {o : SOps T} {o1 : VOps T V1} {o2 : VOps T V2} {o3 : VOps T V3}
  (pmul : V1 -> V2 -> V3) : Prop := {
  bl_add_l : forall a b c, pmul (vadd a b) c = vadd (pmul a c) (pmul b c);
  bl_add_r : forall a b c, pmul a (vadd b c) = vadd (pmul a b) (pmul a c);
  bl_scale_l : forall (x : T) a b, pmul (vscale x a) b = vscale x (pmul a b);
  bl_scale_r : forall (x : T) a b, pmul a (vscale x b) = vscale x (pmul a b)
}.

Section Mul.
Context {T V1 V2 V3 : Type} {o : SOps T} {o1 : VOps T V1} {o2 : VOps T V2} {o3 : VOps T V3}.
Context {F : SField T} {M1 : VMod T V1} {M2 : VMod T V2} {M3 : VMod T V3}.
Context (pmul : V1 -> V2 -> V3) {B : Bilinear pmul}.
Add Field Tfield : (@sf_th T o F).
Add Ring Ering : (@ext_ring T V3 o o3 F M3).
Ltac vring := to_ext; ring.

Lemma bl_0_l b : pmul v0 b = v0.
Proof. rewrite <- (vscale_0_l (v0 : V1)), (bl_scale_l (pmul := pmul)). apply vscale_0_l. Qed.
Lemma bl_0_r a : pmul a v0 = v0.
Proof. rewrite <- (vscale_0_l (v0 : V2)), (bl_scale_r (pmul := pmul)). apply vscale_0_l. Qed.
Lemma bl_sum_l n f b : pmul (vsum (T:=T) n f) b = vsum (T:=T) n (fun i => pmul (f i) b).
Proof. induction n; simpl; [apply bl_0_l|]. rewrite (bl_add_l (pmul := pmul)), IHn. auto. Qed.
Lemma bl_sum_r n a f : pmul a (vsum (T:=T) n f) = vsum (T:=T) n (fun i => pmul a (f i)).
Proof. induction n; simpl; [apply bl_0_r|]. rewrite (bl_add_r (pmul := pmul)), IHn. auto. Qed.

Definition mul_coef (m n k i : nat) : T := sdiv (sofN (binom m i * binom n (k - i))) (sofN (binom (m + n) k)).

(** Coefficient number [ks] of the product. *)
Fixpoint prodsum (ms ns ks : list nat) (f : nat -> V1) (g : nat -> V2) : V3 :=
  match ms, ns, ks with
  | m :: ms', n :: ns', k :: ks' =>
      vsum (S (min k m) - (k - n)) (fun t => vscale (mul_coef m n k (k - n + t))
        (prodsum ms' ns' ks' (fun a => f ((k - n + t) + S m * a))
           (fun b => g ((k - (k - n + t)) + S n * b))))
  | _, _, _ => pmul (f 0) (g 0)
  end.

Lemma prodsum_ext ms : forall ns ks f f' g g', (forall a, f a = f' a) -> (forall a, g a = g' a) ->
  prodsum ms ns ks f g = prodsum ms ns ks f' g'.
Proof.
  induction ms; intros [|n ns] [|k ks] f f' g g' H H'; simpl; rewrite ?H, ?H'; auto.
  apply vsum_ext. intros i Hi. f_equal. apply IHms; auto.
Qed.

Lemma bezier_prodsum ms : forall ns (xs : list T) f g, length ns = length ms -> length xs = length ms ->
  bezier (map2 Nat.add ms ns) xs (fun i => prodsum ms ns (index_of (map2 Nat.add ms ns) i) f g) =
  pmul (bezier ms xs f) (bezier ns xs g).
Proof.
  induction ms as [|m ms IH]; intros [|n ns] [|x xs] f g HN HX; try discriminate; [reflexivity|].
  cbn [map2 bezier].
  transitivity (vsum (S (m + n)) (fun k => vsum (S (min k m) - (k - n)) (fun t =>
    vscale (smul (bernstein m (k - n + t) x) (bernstein n (k - (k - n + t)) x))
      (pmul (bezier ms xs (fun a => f ((k - n + t) + S m * a)))
            (bezier ns xs (fun b => g (k - (k - n + t) + S n * b))))))).
  - apply vsum_ext. intros k Hk.
    transitivity (vscale (bernstein (m + n) k x) (bezier (map2 Nat.add ms ns) xs (fun i =>
      vsum (S (min k m) - (k - n)) (fun t => vscale (mul_coef m n k (k - n + t))
        (prodsum ms ns (index_of (map2 Nat.add ms ns) i) (fun a => f ((k - n + t) + S m * a))
           (fun b => g ((k - (k - n + t)) + S n * b))))))).
    { f_equal. apply bezier_ext. intros i Hi. cbn [index_of].
      replace ((k + S (m + n) * i) mod S (m + n)) with k.
      2:{ rewrite Nat.mul_comm, Nat.mod_add, Nat.mod_small by lia. auto. }
      replace ((k + S (m + n) * i) / S (m + n)) with i.
      2:{ rewrite Nat.mul_comm, Nat.div_add, Nat.div_small by lia. auto. }
      reflexivity. }
    rewrite bezier_vsum, <- vsum_scale. apply vsum_ext. intros t Ht.
    rewrite bezier_scale, IH by (simpl in *; lia). unfold mul_coef.
    rewrite bernstein_mul by lia.
    replace (k - n + t + (k - (k - n + t))) with k by lia. vring.
  - rewrite <- (vsum_cauchy m n (fun i j => vscale (smul (bernstein m i x) (bernstein n j x))
      (pmul (bezier ms xs (fun a => f (i + S m * a))) (bezier ns xs (fun b => g (j + S n * b)))))).
    rewrite bl_sum_l. apply vsum_ext. intros i Hi. rewrite bl_sum_r. apply vsum_ext. intros j Hj.
    rewrite (bl_scale_l (pmul := pmul)), (bl_scale_r (pmul := pmul)). vring.
Qed.

Context (MAXB : nat) (HB : MAXB <= 68).

Lemma add_cps_add (this : spline V3) pos a b :
  pos < length (control_points this) ->
  upd_list (upd_list (control_points this) pos (vadd (nth pos (control_points this) v0) a)) pos
    (vadd (nth pos (upd_list (control_points this) pos (vadd (nth pos (control_points this) v0) a)) v0) b) =
  upd_list (control_points this) pos (vadd (nth pos (control_points this) v0) (vadd a b)).
Proof.
  intros H. apply (list_ext v0); [now rewrite !length_upd|]. intros i Hi. rewrite !length_upd in Hi.
  rewrite !nth_upd by (rewrite ?length_upd; lia). rewrite Nat.eqb_refl.
  destruct (i =? pos); auto. vring.
Qed.

Lemma wf_upd {V} (s : spline V) c : wf s -> length c = length (control_points s) -> wf (with_cps s c).
Proof. intros (A & B0 & C & D) H. repeat split; auto. cbn [with_cps control_points degrees]. congruence. Qed.

Lemma valid_snoc degs idx p i : valid_index degs idx -> i <= p -> valid_index (degs ++ [p]) (idx ++ [i]).
Proof. intros. apply Forall2_app; auto. Qed.

Lemma sub_map_snoc ks idx k i : length ks = length idx ->
  map (fun '(a, b) => a - b) (combine (ks ++ [k]) (idx ++ [i])) =
  map (fun '(a, b) => a - b) (combine ks idx) ++ [k - i].
Proof.
  revert idx; induction ks; intros [|j idx] H; try discriminate; auto.
  simpl in *. rewrite IHks by lia. auto.
Qed.

Lemma position_snoc pre p idx i : length idx = length pre ->
  position (pre ++ [p]) (idx ++ [i]) = position pre idx + n_coeffs pre * i.
Proof. intros. rewrite position_app by auto. simpl. lia. Qed.

Lemma n_coeffs_snoc pre p : n_coeffs (pre ++ [p]) = n_coeffs pre * S p.
Proof. unfold n_coeffs, prod. induction pre; simpl; [lia|]. rewrite IHpre. lia. Qed.

(** Entries before the current direction. *)
Lemma CombineControlPoints_ok (P : spline V1) (Q : spline V2) msr :
  msr <> [] -> wf P -> wf Q ->
  forall nsr ksr preP preQ preK idx fac (this : spline V3),
  degrees P = preP ++ msr -> degrees Q = preQ ++ nsr ->
  length preQ = length preP -> length preK = length preP -> length nsr = length msr ->
  valid_index preP idx -> valid_index preQ (map (fun '(a, b) => a - b) (combine preK idx)) ->
  valid_index (map2 Nat.add msr nsr) ksr ->
  Forall (fun p => p < MAXB) (map2 Nat.add msr nsr) ->
  wf this -> valid_index (degrees this) (preK ++ ksr) ->
  CombineControlPoints MAXB pmul (length msr) P Q (preK ++ ksr) fac idx this =
  Ok (with_cps this (upd_list (control_points this) (position (degrees this) (preK ++ ksr))
    (vadd (nth (position (degrees this) (preK ++ ksr)) (control_points this) v0)
       (vscale fac (prodsum msr nsr ksr
          (fun a => nth (position preP idx + n_coeffs preP * a) (control_points P) v0)
          (fun b => nth (position preQ (map (fun '(a, b) => a - b) (combine preK idx)) + n_coeffs preQ * b)
             (control_points Q) v0)))))).
Proof.
  induction msr as [|m msr IH]; [congruence|]. intros _ HP HQ.
  intros nsr ksr preP preQ preK idx fac this DP DQ LQ LK LN VP VQ VK HM HT VT.
  destruct nsr as [|n nsr]; [discriminate|]. destruct ksr as [|k ksr]; [inversion VK|].
  cbn [map2] in VK, HM. inversion VK as [|? ? ? ? Hk VK']; subst.
  inversion HM as [|? ? Hmn HM']; subst.
  pose proof (valid_index_length _ _ VP) as LI.
  set (pos := position (degrees this) (preK ++ k :: ksr)).
  assert (Hpos : pos < length (control_points this)).
  { destruct HT as (_ & _ & _ & ->). apply position_lt; auto. }
  cbn [length CombineControlPoints].
  rewrite (get_ok 0) by (rewrite app_length; simpl; lia).
  rewrite app_nth2, LK, LI, Nat.sub_diag by lia. cbn [nth bind].
  rewrite DP, (get_ok 0) by (rewrite app_length; simpl; lia).
  rewrite app_nth2, Nat.sub_diag by lia. cbn [nth bind].
  rewrite DQ, (get_ok 0) by (rewrite app_length; simpl; lia).
  rewrite app_nth2, LQ, Nat.sub_diag by lia. cbn [nth bind].
  set (posP := position preP idx).
  set (posQ := position preQ (map (fun '(a, b) => a - b) (combine preK idx))).
  set (term := fun t => vscale (mul_coef m n k (k - n + t))
        (prodsum msr nsr ksr
           (fun a => nth (posP + n_coeffs preP * ((k - n + t) + S m * a)) (control_points P) v0)
           (fun b => nth (posQ + n_coeffs preQ * ((k - (k - n + t)) + S n * b)) (control_points Q) v0))).
  assert (Lsub : length (map (fun '(a, b) => a - b) (combine preK idx)) = length preQ)
    by (rewrite map_length, combine_length; lia).
  edestruct (for_up_inv (fun i st => st = with_cps this (upd_list (control_points this) pos
    (vadd (nth pos (control_points this) v0) (vscale fac (vsum (i - (k - n)) term))))))
    as (st & E & Hst).
  3:{ rewrite E, Hst. do 2 f_equal. cbn [prodsum].
      replace (k - n + (S (min k m) - (k - n)) - (k - n)) with (S (min k m) - (k - n)) by lia.
      reflexivity. }
  - rewrite Nat.sub_diag. cbn [vsum].
    replace (vadd (nth pos (control_points this) v0) (vscale fac v0)) with (nth pos (control_points this) v0) by vring.
    rewrite upd_list_same by auto. destruct this; reflexivity.
  - cbv beta. intros i st Hi ->.
    rewrite !choose_ok by lia. cbn [bind].
    rewrite N.mod_small.
    2:{ eapply N.le_lt_trans; [apply binom_vander|]. apply binom_bound. lia. }
    rewrite divS_ok by (apply sbinom_neq0; lia). cbn [bind].
    fold (mul_coef m n k i).
    set (st := with_cps this _).
    assert (Hst : wf st) by (apply wf_upd; auto; now rewrite length_upd).
    assert (VP' : valid_index (preP ++ [m]) (idx ++ [i])) by (apply valid_snoc; auto; lia).
    assert (VQ' : valid_index (preQ ++ [n]) (map (fun '(a, b) => a - b) (combine (preK ++ [k]) (idx ++ [i])))).
    { rewrite sub_map_snoc by lia. apply valid_snoc; auto. lia. }
    assert (Hcl : nth pos (control_points st) v0 =
      vadd (nth pos (control_points this) v0) (vscale fac (vsum (i - (k - n)) term))).
    { unfold st. cbn [with_cps control_points]. rewrite nth_upd, Nat.eqb_refl by auto. auto. }
    assert (Hfin : forall w, w = vscale (mul_coef m n k i) (prodsum msr nsr ksr
           (fun a => nth (posP + n_coeffs preP * (i + S m * a)) (control_points P) v0)
           (fun b => nth (posQ + n_coeffs preQ * ((k - i) + S n * b)) (control_points Q) v0)) ->
      with_cps st (upd_list (control_points st) pos (vadd (nth pos (control_points st) v0) (vscale fac w))) =
      with_cps this (upd_list (control_points this) pos
        (vadd (nth pos (control_points this) v0) (vscale fac (vsum (S i - (k - n)) term))))).
    { intros w ->. unfold st. cbn [with_cps control_points]. rewrite add_cps_add by auto.
      unfold with_cps at 1. cbn [degrees number_of_control_points index_offsets]. unfold with_cps. f_equal.
      replace (S i - (k - n)) with (S (i - (k - n))) by lia. cbn [vsum].
      rewrite vm_dr. do 3 f_equal. unfold term.
      replace (k - n + (i - (k - n))) with i by lia. reflexivity. }
    destruct msr as [|m' msr].
    + cbn [length]. destruct nsr; [|discriminate]. destruct ksr; [|inversion VK'].
      rewrite (ControlPoint_ok v0) by auto. cbn [bind].
      rewrite (ControlPoint_ok v0) by (auto; rewrite DP; auto). cbn [bind].
      rewrite (ControlPoint_ok v0) by (auto; rewrite DQ; auto). cbn [bind].
      rewrite SetControlPoint_ok by auto. change (degrees st) with (degrees this). fold pos.
      eexists. split; [reflexivity|]. rewrite <- (Hfin _ eq_refl).
      do 3 f_equal. cbn [prodsum]. rewrite DP, DQ.
      rewrite position_snoc by auto. rewrite sub_map_snoc by lia. rewrite position_snoc by auto.
      fold posP posQ. rewrite !Nat.mul_0_r, !Nat.add_0_r. vring.
    + cbn [length]. replace (preK ++ k :: ksr) with ((preK ++ [k]) ++ ksr) by now rewrite <- app_assoc.
      eexists. split.
      * apply (IH ltac:(congruence) HP HQ nsr ksr (preP ++ [m]) (preQ ++ [n]) (preK ++ [k]) (idx ++ [i])
          (smul fac (mul_coef m n k i)) st); auto.
        -- rewrite DP, <- app_assoc. auto.
        -- rewrite DQ, <- app_assoc. auto.
        -- rewrite !app_length. simpl. lia.
        -- rewrite !app_length. simpl. lia.
        -- rewrite <- app_assoc. exact VT.
      * change (degrees st) with (degrees this). rewrite <- app_assoc. cbn [app]. fold pos.
        rewrite <- (Hfin _ eq_refl). do 3 f_equal. 
        rewrite sub_map_snoc by lia. rewrite !position_snoc by auto. fold posP posQ.
        rewrite vm_mul. do 2 f_equal.
        apply prodsum_ext; intros a; f_equal; rewrite n_coeffs_snoc; lia.
Qed.

Lemma map2_add_neq l m : l <> [] -> length m = length l -> map2 Nat.add l m <> [].
Proof. destruct l, m; simpl; intros; congruence. Qed.
Lemma length_map2_add l m : length m = length l -> length (map2 Nat.add l m) = length l.
Proof. revert m; induction l; intros [|b m] H; try discriminate; auto. simpl in *. auto. Qed.
Lemma nth_map2_add l m k : length m = length l -> k < length l ->
  nth k (map2 Nat.add l m) 0 = nth k l 0 + nth k m 0.
Proof. revert m k; induction l; intros [|b m] [|k] H Hk; try discriminate; simpl in *; try lia. apply IHl; lia. Qed.

Lemma spline_mul_ok (P : spline V1) (Q : spline V2) :
  wf P -> wf Q -> length (degrees Q) = length (degrees P) ->
  Forall (fun p => p < MAXB) (map2 Nat.add (degrees P) (degrees Q)) ->
  exists r, spline_mul MAXB pmul P Q = Ok r /\ wf r /\
    degrees r = map2 Nat.add (degrees P) (degrees Q) /\
    forall xs : list T, length xs = length (degrees P) ->
      value_at r xs = pmul (value_at P xs) (value_at Q xs).
Proof.
  intros HP HQ HL HM. unfold spline_mul.
  set (pd := map2 Nat.add (degrees P) (degrees Q)) in *.
  assert (Lpd : length pd = length (degrees P)) by (apply length_map2_add; auto).
  assert (Npd : pd <> []) by (apply map2_add_neq; auto; apply HP).
  edestruct (for_up_inv (fun n l => length l = length (degrees P) /\
    forall j, j < n -> nth j l 0 = nth j pd 0)) as (l & E & Hl & Hn).
  3:{ rewrite E. cbn [bind]. replace l with pd.
      2:{ apply (list_ext 0); [lia|]. intros i Hi. symmetry. apply Hn. lia. }
      rewrite Spline_deg_ok by auto. cbn [bind].
      set (r0 := mk pd (repeat v0 (n_coeffs pd))).
      change (number_of_control_points r0) with (n_coeffs pd).
      set (co := fun i => prodsum (degrees P) (degrees Q) (index_of pd i)
        (fun a => nth a (control_points P) v0) (fun a => nth a (control_points Q) v0)).
      edestruct (for_up_inv (fun n r => degrees r = pd /\ wf r /\
        forall i, i < n_coeffs pd -> nth i (control_points r) v0 = if i <? n then co i else v0))
        as (r & Er & Hd & Hw & Hc).
      3:{ rewrite Er. exists r. split; [auto|]. split; [auto|]. split; [auto|]. intros xs HX.
          unfold value_at. rewrite Hd.
          transitivity (bezier pd xs co).
          - apply bezier_ext. intros i Hi. rewrite Hc by auto.
            rewrite (proj2 (Nat.ltb_lt i (0 + n_coeffs pd))) by lia. auto.
          - apply bezier_prodsum; auto. }
      - split; [reflexivity|]. split; [|intros i Hi; cbn [r0 mk control_points];
          rewrite (proj2 (Nat.ltb_ge i 0)) by lia; apply nth_repeat].
        repeat split; auto. cbn [mk control_points degrees]. apply repeat_length.
      - cbv beta. intros i r Hi (Hd & Hw & Hc). rewrite LocalToGlobal_ok by auto. cbn [bind].
        rewrite Hd. pose proof (index_of_valid pd i) as Hv.
        eexists. split.
        + apply (CombineControlPoints_ok P Q (degrees P) ltac:(apply HP) HP HQ (degrees Q) (index_of pd i)
            [] [] [] [] s1 r); auto; try constructor. rewrite Hd. exact Hv.
        + cbn [app position combine map]. change (n_coeffs []) with 1. rewrite Hd.
          rewrite position_index_of by lia.
          split; [exact Hd|]. split; [apply wf_upd; auto; apply length_upd|].
          intros j Hj. cbn [with_cps control_points].
          assert (Hlen : length (control_points r) = n_coeffs pd)
            by (destruct Hw as (_ & _ & _ & ->); now rewrite Hd).
          rewrite nth_upd by lia. destruct (Nat.eqb_spec j i) as [->|Hne].
          * rewrite (proj2 (Nat.ltb_lt i (S i))) by lia. rewrite Hc, Nat.ltb_irrefl by auto.
            rewrite vm_0, vm_1. apply prodsum_ext; intros a; f_equal; lia.
          * rewrite Hc by auto. replace (j <? S i) with (j <? i); auto.
            apply eq_true_iff_eq. rewrite !Nat.ltb_lt. lia. }
  - rewrite repeat_length. split; [auto|]. intros; lia.
  - cbv beta. intros i l Hi (Hl & Hn). rewrite (get_ok 0) by lia. cbn [bind].
    rewrite (get_ok 0) by lia. cbn [bind]. eexists. split; [apply set_ok; lia|].
    split; [now rewrite length_upd|]. intros j Hj. rewrite nth_upd by lia.
    destruct (Nat.eqb_spec j i) as [->|]; [|apply Hn; lia].
    unfold pd. rewrite nth_map2_add by lia. auto.
Qed.
End Mul.

(** The products the library offers. *)
Section Instances.
Context {T V : Type} {o : SOps T} {ov : VOps T V} {F : SField T} {M : VMod T V}.
Add Field Tfield2 : (@sf_th T o F).
Add Ring Ering2 : (@ext_ring T V o ov F M).
Ltac vring := to_ext; ring.

#[global] Instance Bilinear_ss : Bilinear (T := T) (smul (S := T)).
Proof. split; simpl; intros; ring. Qed.
#[global] Instance Bilinear_sp : Bilinear (T := T) (fun (c : T) (p : V) => vscale c p).
Proof. split; intros; simpl; vring. Qed.
#[global] Instance Bilinear_ps : Bilinear (T := T) (fun (p : V) (c : T) => vscale c p).
Proof. split; intros; simpl; vring. Qed.

(** Scalar product of points. *)
Definition dot (d : nat) (p q : point T d) : T := ssum d (fun k => smul (coord d p k) (coord d q k)).
#[global] Instance Bilinear_dot d : Bilinear (T := T) (dot d).
Proof.
  split; unfold dot; intros.
  - simpl (vadd (ssum _ _) _). rewrite <- ssum_add. apply ssum_ext. intros. rewrite coord_add. ring.
  - simpl (vadd (ssum _ _) _). rewrite <- ssum_add. apply ssum_ext. intros. rewrite coord_add. ring.
  - simpl (vscale _ (ssum _ _)). rewrite <- ssum_scale. apply ssum_ext. intros. rewrite coord_scale. ring.
  - simpl (vscale _ (ssum _ _)). rewrite <- ssum_scale. apply ssum_ext. intros. rewrite coord_scale. ring.
Qed.
End Instances.

(** Powers of scalar-valued splines. *)
Section Power.
Context {T : Type} {o : SOps T} {F : SField T}.
Add Field Tfield3 : (@sf_th T o F).
Context (MAXB : nat) (HB : MAXB <= 68).

Lemma n_coeffs_0 dim : n_coeffs (repeat 0 dim) = 1.
Proof. unfold n_coeffs, prod. induction dim; simpl; lia. Qed.

Lemma bezier_deg0 dim : forall (xs : list T) (f : nat -> T), length xs = dim ->
  bezier (repeat 0 dim) xs f = f 0.
Proof.
  intros xs f H. rewrite (bezier_ext _ _ _ (fun _ => f 0)).
  - apply bezier_const. now rewrite repeat_length.
  - intros i Hi. rewrite n_coeffs_0 in Hi. replace i with 0 by lia. auto.
Qed.

Lemma const_one_ok dim : 0 < dim ->
  exists r : spline T, const_one dim = Ok r /\ wf r /\ degrees r = repeat 0 dim /\
    forall xs : list T, length xs = dim -> value_at r xs = s1.
Proof.
  intros H. unfold const_one.
  assert (HN : repeat 0 dim <> []) by (destruct dim; [lia|simpl; congruence]).
  rewrite Spline_deg_points_ok by (auto; now rewrite n_coeffs_0).
  eexists. split; [reflexivity|]. split; [|split; [reflexivity|]].
  - repeat split; auto. cbn [mk control_points degrees]. now rewrite n_coeffs_0.
  - intros xs HX. unfold value_at. cbn [mk degrees control_points]. rewrite bezier_deg0 by auto. reflexivity.
Qed.

Lemma mul_ss_ok (P Q : spline T) : wf P -> wf Q -> length (degrees Q) = length (degrees P) ->
  Forall (fun p => p < MAXB) (map2 Nat.add (degrees P) (degrees Q)) ->
  exists r, spline_mul_ss MAXB P Q = Ok r /\ wf r /\
    degrees r = map2 Nat.add (degrees P) (degrees Q) /\
    forall xs : list T, length xs = length (degrees P) ->
      value_at r xs = smul (value_at P xs) (value_at Q xs).
Proof. intros. apply (spline_mul_ok (T := T) smul MAXB HB); auto. Qed.

Lemma map2_add_mul a b l : map2 Nat.add (map (Nat.mul a) l) (map (Nat.mul b) l) = map (Nat.mul (a + b)) l.
Proof. induction l; auto. cbn [map map2]. f_equal; [lia|auto]. Qed.
Lemma map_mul_1 l : map (Nat.mul 1) l = l.
Proof. induction l; auto. cbn [map]. f_equal; [lia|auto]. Qed.

Lemma RaisePower_rec_ok (s : spline T) : wf s -> forall fuel n, n < fuel ->
  Forall (fun p => n * p < MAXB) (degrees s) ->
  exists r, RaisePower_rec MAXB fuel s n = Ok r /\ wf r /\ degrees r = map (Nat.mul n) (degrees s) /\
    forall xs : list T, length xs = length (degrees s) -> value_at r xs = spow (value_at s xs) n.
Proof.
  intros Hs. induction fuel as [|fuel IH]; intros n Hn HF; [lia|]. cbn [RaisePower_rec].
  destruct (Nat.eqb_spec n 0) as [->|H0].
  { destruct (const_one_ok (length (degrees s))) as (r & E & Hw & Hd & HV).
    { destruct Hs as (Hd & _). destruct (degrees s); simpl; [congruence|lia]. }
    exists r. split; [auto|]. split; [auto|]. split; [|intros; rewrite HV; auto].
    rewrite Hd. clear. induction (degrees s); simpl; f_equal; auto. }
  destruct (Nat.eqb_spec n 1) as [->|H1].
  { exists s. split; auto. split; auto. split; [now rewrite map_mul_1|].
    intros xs HX. simpl. ring. }
  set (h := n / 2).
  assert (Hh : n = 2 * h + n mod 2) by (apply Nat.div_mod; lia).
  assert (Hm : n mod 2 < 2) by (apply Nat.mod_upper_bound; lia).
  destruct (IH h) as (r & E & Hw & Hd & HV); [lia| |].
  { eapply Forall_impl; [|exact HF]. intros p Hp. cbv beta in *. nia. }
  rewrite E. cbn [bind].
  assert (Lr : length (degrees r) = length (degrees s)) by (rewrite Hd, map_length; auto).
  destruct (mul_ss_ok r r) as (rr & Er & Hwr & Hdr & HVr); auto.
  { rewrite Hd, map2_add_mul. rewrite Forall_map. eapply Forall_impl; [|exact HF].
    intros p Hp. cbv beta in *. nia. }
  rewrite Er. cbn [bind]. rewrite Hd, map2_add_mul in Hdr.
  destruct (Nat.eqb_spec (n mod 2) 0) as [E0|E0].
  - exists rr. split; auto. split; auto. split.
    + rewrite Hdr. f_equal. f_equal. lia.
    + intros xs HX. rewrite HVr, HV by congruence. rewrite <- spow_add. f_equal. lia.
  - assert (Ld : length (degrees s) = length (degrees rr)) by (rewrite Hdr, map_length; auto).
    assert (Hmap : map2 Nat.add (degrees rr) (degrees s) = map (Nat.mul n) (degrees s)).
    { rewrite Hdr. rewrite <- (map_mul_1 (degrees s)) at 2. rewrite map2_add_mul. f_equal. f_equal. lia. }
    destruct (mul_ss_ok rr s) as (q & Eq & Hwq & Hdq & HVq); auto.
    { rewrite Hmap, Forall_map. exact HF. }
    exists q. split; auto. split; auto. split; [congruence|].
    intros xs HX. rewrite HVq, HVr, HV by congruence. rewrite <- spow_add.
    replace (spow (value_at s xs) n) with (spow (value_at s xs) (S (h + h))) by (f_equal; lia).
    cbn [spow]. ring.
Qed.

Lemma RaisePower_ok (s : spline T) n : wf s -> Forall (fun p => n * p < MAXB) (degrees s) ->
  exists r, RaisePower MAXB s n = Ok r /\ wf r /\ degrees r = map (Nat.mul n) (degrees s) /\
    forall xs : list T, length xs = length (degrees s) -> value_at r xs = spow (value_at s xs) n.
Proof. intros. apply RaisePower_rec_ok; auto. Qed.
End Power.
