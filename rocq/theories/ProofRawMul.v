(** What the product of splines and the composition compute, operation by operation, whatever the
    arithmetic. *)
From Coq Require Import Arith Lia List ZArith NArith Bool.
From Verif Require Import Prelude Scalar Spec SpecSpline Sums ModelBasis ModelSpline ProofIndex ProofBasis ProofEval
  ProofElevate ProofMul ProofCompose.
Import ListNotations.
Local Open Scope nat_scope.

Section RawMul.
Context {T V1 V2 V3 : Type} {o : SOps T} {o3 : VOps T V3}.
Context (pmul : V1 -> V2 -> V3) (d1 : V1) (d2 : V2).

Definition rcoef (m n k i : nat) : T := sdiv (sofN (binom m i * binom n (k - i))) (sofN (binom (m + n) k)).

(** Coefficient number [ks] of the product, added to [c] term by term. *)
Fixpoint rprod (fac : T) (c : V3) (ms ns ks : list nat) (f : nat -> V1) (g : nat -> V2) : V3 :=
  match ms, ns, ks with
  | m :: ms', n :: ns', k :: ks' =>
      fold_left (fun c i =>
        match ms' with
        | [] => vadd c (vscale (rcoef m n k i) (vscale fac (pmul (f i) (g (k - i)))))
        | _ => rprod (smul fac (rcoef m n k i)) c ms' ns' ks' (fun a => f (i + S m * a)) (fun b => g ((k - i) + S n * b))
        end) (seq (k - n) (S (min k m) - (k - n))) c
  | _, _, _ => c
  end.

Lemma fold_ext {A B} (f g : A -> B -> A) l : (forall a b, f a b = g a b) -> forall a, fold_left f l a = fold_left g l a.
Proof. intros H. induction l; intros; simpl; auto. rewrite H. auto. Qed.

Lemma rprod_ext ms : forall fac c ns ks f f' g g', (forall a, f a = f' a) -> (forall a, g a = g' a) ->
  rprod fac c ms ns ks f g = rprod fac c ms ns ks f' g'.
Proof.
  induction ms as [|m ms IH]; intros fac c [|n ns] [|k ks] f f' g g' H H'; simpl; auto.
  apply fold_ext. intros a b. destruct ms; [now rewrite H, H'|]. apply IH; auto.
Qed.

Context (MAXB : nat) (HB : MAXB <= 68).
Context (Hdiv : forall n k, k <= n -> n < MAXB -> seqb (sofN (binom n k)) s0 = false).

Lemma CombineControlPoints_raw (P : spline V1) (Q : spline V2) msr :
  msr <> [] -> wf P -> wf Q ->
  forall nsr ksr preP preQ preK idx fac (this : spline V3),
  degrees P = preP ++ msr -> degrees Q = preQ ++ nsr ->
  length preQ = length preP -> length preK = length preP -> length nsr = length msr ->
  valid_index preP idx -> valid_index preQ (map (fun '(a, b) => a - b) (combine preK idx)) ->
  valid_index (map2 Nat.add msr nsr) ksr ->
  Forall (fun p => p < MAXB) (map2 Nat.add msr nsr) ->
  wf this -> valid_index (degrees this) (preK ++ ksr) ->
  CombineControlPoints MAXB pmul (length msr) P Q (preK ++ ksr) fac idx this =
  Ok (with_cps this (upd_list (control_points this) (position (degrees this) (preK ++ ksr))
    (rprod fac (nth (position (degrees this) (preK ++ ksr)) (control_points this) v0) msr nsr ksr
          (fun a => nth (position preP idx + n_coeffs preP * a) (control_points P) d1)
          (fun b => nth (position preQ (map (fun '(a, b) => a - b) (combine preK idx)) + n_coeffs preQ * b)
             (control_points Q) d2)))).
Proof.
  induction msr as [|m msr IH]; [congruence|]. intros _ HP HQ.
  intros nsr ksr preP preQ preK idx fac this DP DQ LQ LK LN VP VQ VK HM HT VT.
  destruct nsr as [|n nsr]; [discriminate|]. destruct ksr as [|k ksr]; [inversion VK|].
  cbn [map2] in VK, HM. inversion VK as [|? ? ? ? Hk VK']; subst.
  inversion HM as [|? ? Hmn HM']; subst.
  pose proof (valid_index_length _ _ VP) as LI.
  set (pos := position (degrees this) (preK ++ k :: ksr)).
  assert (Hpos : pos < length (control_points this)).
  { destruct HT as (_ & _ & _ & ->). apply position_lt; auto. }
  cbn [length CombineControlPoints].
  rewrite (get_ok 0) by (rewrite app_length; simpl; lia).
  rewrite app_nth2, LK, LI, Nat.sub_diag by lia. cbn [nth bind].
  rewrite DP, (get_ok 0) by (rewrite app_length; simpl; lia).
  rewrite app_nth2, Nat.sub_diag by lia. cbn [nth bind].
  rewrite DQ, (get_ok 0) by (rewrite app_length; simpl; lia).
  rewrite app_nth2, LQ, Nat.sub_diag by lia. cbn [nth bind].
  set (posP := position preP idx).
  set (posQ := position preQ (map (fun '(a, b) => a - b) (combine preK idx))).
  cbn [rprod].
  set (step := fun (c : V3) (i : nat) => match msr with [] => _ | _ => _ end).
  assert (Lsub : length (map (fun '(a, b) => a - b) (combine preK idx)) = length preQ)
    by (rewrite map_length, combine_length; lia).
  edestruct (for_up_inv (fun i st => st = with_cps this (upd_list (control_points this) pos
    (fold_left step (seq (k - n) (i - (k - n))) (nth pos (control_points this) v0)))))
    as (st & E & Hst).
  3:{ rewrite E, Hst. do 4 f_equal.
      replace (k - n + (S (min k m) - (k - n)) - (k - n)) with (S (min k m) - (k - n)) by lia.
      reflexivity. }
  - rewrite Nat.sub_diag. cbn [seq fold_left].
    rewrite upd_list_same by auto. destruct this; reflexivity.
  - cbv beta. intros i st Hi ->.
    rewrite !choose_ok by lia. cbn [bind].
    rewrite N.mod_small.
    2:{ eapply N.le_lt_trans; [apply binom_vander|]. apply binom_bound. lia. }
    unfold divS. rewrite Hdiv by lia. cbn [bind].
    fold (rcoef m n k i).
    set (c0 := fold_left step _ _).
    set (st := with_cps this _).
    assert (Hst : wf st) by (apply wf_upd; auto; now rewrite length_upd).
    assert (VP' : valid_index (preP ++ [m]) (idx ++ [i])) by (apply valid_snoc; auto; lia).
    assert (VQ' : valid_index (preQ ++ [n]) (map (fun '(a, b) => a - b) (combine (preK ++ [k]) (idx ++ [i])))).
    { rewrite (sub_map_snoc MAXB HB) by lia. apply valid_snoc; auto. lia. }
    assert (Hcl : nth pos (control_points st) v0 = c0).
    { unfold st. cbn [with_cps control_points]. rewrite nth_upd, Nat.eqb_refl by auto. auto. }
    assert (Hfin : forall w, w = step c0 i ->
      with_cps st (upd_list (control_points st) pos w) =
      with_cps this (upd_list (control_points this) pos
        (fold_left step (seq (k - n) (S i - (k - n))) (nth pos (control_points this) v0)))).
    { intros w ->. unfold st. cbn [with_cps control_points].
      unfold with_cps at 1. cbn [degrees number_of_control_points index_offsets]. unfold with_cps. f_equal.
      replace (S i - (k - n)) with (S (i - (k - n))) by lia. rewrite seq_S, fold_left_app. cbn [fold_left].
      replace (k - n + (i - (k - n))) with i by lia. fold c0.
      apply (list_ext v0); [now rewrite !length_upd|]. intros j Hj. rewrite !length_upd in Hj.
      rewrite !nth_upd by (rewrite ?length_upd; lia). destruct (j =? pos); auto. }
    destruct msr as [|m' msr].
    + cbn [length]. destruct nsr; [|discriminate]. destruct ksr; [|inversion VK'].
      rewrite (ControlPoint_ok v0) by auto. cbn [bind].
      rewrite (ControlPoint_ok d1) by (auto; rewrite DP; auto). cbn [bind].
      rewrite (ControlPoint_ok d2) by (auto; rewrite DQ; auto). cbn [bind].
      rewrite SetControlPoint_ok by auto. change (degrees st) with (degrees this). fold pos.
      eexists. split; [reflexivity|]. rewrite <- (Hfin _ eq_refl).
      do 2 f_equal. unfold step. rewrite Hcl, DP, DQ.
      rewrite (position_snoc MAXB HB) by auto. rewrite (sub_map_snoc MAXB HB) by lia. rewrite (position_snoc MAXB HB) by auto. reflexivity.
    + cbn [length]. replace (preK ++ k :: ksr) with ((preK ++ [k]) ++ ksr) by now rewrite <- app_assoc.
      eexists. split.
      * apply (IH ltac:(congruence) HP HQ nsr ksr (preP ++ [m]) (preQ ++ [n]) (preK ++ [k]) (idx ++ [i])
          (smul fac (rcoef m n k i)) st); auto.
        -- rewrite DP, <- app_assoc. auto.
        -- rewrite DQ, <- app_assoc. auto.
        -- rewrite !app_length. simpl. lia.
        -- rewrite !app_length. simpl. lia.
        -- rewrite <- app_assoc. exact VT.
      * change (degrees st) with (degrees this). rewrite <- app_assoc. cbn [app]. fold pos.
        rewrite Hcl. rewrite <- (Hfin _ eq_refl). do 2 f_equal. unfold step.
        apply rprod_ext; intros a; f_equal.
        -- rewrite (position_snoc MAXB HB), (n_coeffs_snoc MAXB HB) by auto. fold posP. lia.
        -- rewrite (sub_map_snoc MAXB HB) by lia. rewrite (position_snoc MAXB HB), (n_coeffs_snoc MAXB HB) by auto. fold posQ. lia.
Qed.

Lemma spline_mul_raw (P : spline V1) (Q : spline V2) :
  wf P -> wf Q -> length (degrees Q) = length (degrees P) ->
  Forall (fun p => p < MAXB) (map2 Nat.add (degrees P) (degrees Q)) ->
  exists r, spline_mul MAXB pmul P Q = Ok r /\ wf r /\
    degrees r = map2 Nat.add (degrees P) (degrees Q) /\
    forall i, i < n_coeffs (degrees r) -> nth i (control_points r) v0 =
      rprod s1 v0 (degrees P) (degrees Q) (index_of (degrees r) i)
        (fun a => nth a (control_points P) d1) (fun a => nth a (control_points Q) d2).
Proof.
  intros HP HQ HL HM. unfold spline_mul.
  set (pd := map2 Nat.add (degrees P) (degrees Q)) in *.
  assert (Lpd : length pd = length (degrees P)) by (apply length_map2_add; auto).
  assert (Npd : pd <> []) by (apply map2_add_neq; auto; apply HP).
  edestruct (for_up_inv (fun n l => length l = length (degrees P) /\
    forall j, j < n -> nth j l 0 = nth j pd 0)) as (l & E & Hl & Hn).
  3:{ rewrite E. cbn [bind]. replace l with pd.
      2:{ apply (list_ext 0); [lia|]. intros i Hi. symmetry. apply Hn. lia. }
      rewrite Spline_deg_ok by auto. cbn [bind].
      set (r0 := mk pd (repeat v0 (n_coeffs pd))).
      change (number_of_control_points r0) with (n_coeffs pd).
      set (co := fun i => rprod s1 v0 (degrees P) (degrees Q) (index_of pd i)
        (fun a => nth a (control_points P) d1) (fun a => nth a (control_points Q) d2)).
      edestruct (for_up_inv (fun n r => degrees r = pd /\ wf r /\
        forall i, i < n_coeffs pd -> nth i (control_points r) v0 = if i <? n then co i else v0))
        as (r & Er & Hd & Hw & Hc).
      3:{ rewrite Er. exists r. split; [auto|]. split; [auto|]. split; [auto|]. intros i Hi. rewrite Hd in Hi |- *.
          rewrite Hc by auto. now rewrite (proj2 (Nat.ltb_lt i (0 + n_coeffs pd))) by lia. }
      - split; [reflexivity|]. split; [|intros i Hi; cbn [r0 mk control_points];
          rewrite (proj2 (Nat.ltb_ge i 0)) by lia; apply nth_repeat].
        repeat split; auto. cbn [mk control_points degrees]. apply repeat_length.
      - cbv beta. intros i r Hi (Hd & Hw & Hc). rewrite LocalToGlobal_ok by auto. cbn [bind].
        rewrite Hd. pose proof (index_of_valid pd i) as Hv.
        eexists. split.
        + apply (CombineControlPoints_raw P Q (degrees P) ltac:(apply HP) HP HQ (degrees Q) (index_of pd i)
            [] [] [] [] s1 r); auto; try constructor. rewrite Hd. exact Hv.
        + cbn [app position combine map]. change (n_coeffs []) with 1. rewrite Hd.
          rewrite position_index_of by lia.
          split; [exact Hd|]. split; [apply wf_upd; auto; apply length_upd|].
          intros j Hj. cbn [with_cps control_points].
          assert (Hlen : length (control_points r) = n_coeffs pd)
            by (destruct Hw as (_ & _ & _ & ->); now rewrite Hd).
          rewrite nth_upd by lia. destruct (Nat.eqb_spec j i) as [->|Hne].
          * rewrite (proj2 (Nat.ltb_lt i (S i))) by lia. rewrite Hc, Nat.ltb_irrefl by auto.
            apply rprod_ext; intros a; f_equal; lia.
          * rewrite Hc by auto. replace (j <? S i) with (j <? i); auto.
            apply eq_true_iff_eq. rewrite !Nat.ltb_lt. lia. }
  - rewrite repeat_length. split; [auto|]. intros; lia.
  - cbv beta. intros i l Hi (Hl & Hn). rewrite (get_ok 0) by lia. cbn [bind].
    rewrite (get_ok 0) by lia. cbn [bind]. eexists. split; [apply set_ok; lia|].
    split; [now rewrite length_upd|]. intros j Hj. rewrite nth_upd by lia.
    destruct (Nat.eqb_spec j i) as [->|]; [|apply Hn; lia].
    unfold pd. rewrite (nth_map2_add MAXB HB) by lia. auto.
Qed.
End RawMul.

Section RawCompose.
Context (MAXB : nat) {T V : Type} {o : SOps T} {ov : VOps T V}.

Lemma ComposeNumerator_raw (outer : spline V) (D : list nat) extract inverse bs (t : nat -> spline T) :
  D <> [] -> wf outer ->
  all_basis_splines MAXB outer (length D) extract inverse = Ok bs ->
  (forall i, i < n_coeffs (degrees outer) ->
    tensor_spline MAXB bs (index_of (degrees outer) i) (length (degrees outer)) = Ok (t i) /\
    wf (t i) /\ degrees (t i) = map (Nat.mul (sum_degrees outer)) D) ->
  exists r, ComposeNumerator MAXB outer D extract inverse = Ok r /\ wf r /\
    degrees r = map (Nat.mul (sum_degrees outer)) D /\
    forall j, j < n_coeffs (degrees r) -> nth j (control_points r) v0 =
      vsum (n_coeffs (degrees outer)) (fun i => vscale (nth j (control_points (t i)) s0) (nth i (control_points outer) v0)).
Proof.
  intros HD Ho Eb HT. unfold ComposeNumerator. rewrite (map_mul_comm (sum_degrees outer) D).
  set (N := sum_degrees outer) in *.
  assert (HNN : map (Nat.mul N) D <> []) by (destruct D; [congruence|simpl; congruence]).
  rewrite Spline_deg_ok by auto. cbn [bind]. rewrite Eb. cbn [bind].
  pose proof Ho as (Hd & Hn & Hof & Hc). rewrite Hn.
  edestruct (for_up_inv (fun i r => wf r /\ degrees r = map (Nat.mul N) D /\
    forall j, j < n_coeffs (map (Nat.mul N) D) -> nth j (control_points r) v0 =
      vsum i (fun i => vscale (nth j (control_points (t i)) s0) (nth i (control_points outer) v0))))
    as (r & E & Hr & Hdr & HV).
  3:{ rewrite E. exists r. split; [auto|]. split; [auto|]. split; [auto|]. intros j Hj. rewrite Hdr in Hj. rewrite HV by auto. reflexivity. }
  - split; [apply wf_mk; auto; apply repeat_length|]. split; [reflexivity|].
    intros j Hj. cbn [mk control_points vsum]. apply nth_repeat.
  - intros i r Hi (Hr & Hdr & HV). cbv beta. rewrite LocalToGlobal_ok by exact Ho. cbn [bind].
    destruct (HT i ltac:(lia)) as (-> & Ht & Hdt). cbn [bind].
    rewrite Hdt. rewrite list_eqb_refl. cbn [assert_ bind].
    pose proof Hr as (_ & Hnr & _ & Hcr). pose proof Ht as (_ & _ & _ & Hct).
    rewrite Hdr in Hcr, Hnr. rewrite Hdt in Hct. rewrite Hnr.
    edestruct (for_up_inv (fun j c => length c = n_coeffs (map (Nat.mul N) D) /\
      forall g, g < n_coeffs (map (Nat.mul N) D) -> nth g c v0 = if g <? j then
         vadd (nth g (control_points r) v0) (vscale (nth g (control_points (t i)) s0) (nth i (control_points outer) v0))
         else nth g (control_points r) v0)) as (c & E & HL & HN).
    3:{ rewrite E. cbn [bind]. eexists. split; [reflexivity|].
        split; [apply wf_upd; auto; congruence|]. split; [exact Hdr|].
        intros j Hj. cbn [vsum with_cps control_points]. rewrite HN by auto.
        rewrite (proj2 (Nat.ltb_lt j _)) by auto. rewrite HV by auto. reflexivity. }
    + split; [exact Hcr|]. intros g Hg. reflexivity.
    + intros j c Hj (HL & HN). cbv beta. rewrite (get_ok v0) by lia. cbn [bind].
      rewrite (get_ok s0) by (rewrite Hct; lia). cbn [bind].
      rewrite (get_ok v0) by (rewrite Hc; lia). cbn [bind].
      rewrite set_ok by lia. eexists. split; [reflexivity|]. rewrite length_upd. split; auto.
      intros g Hg. rewrite nth_upd by lia. destruct (Nat.eqb_spec g j) as [->|Hne].
      * rewrite HN by lia. rewrite (proj2 (Nat.ltb_ge j j)), (proj2 (Nat.ltb_lt j (S j))) by lia. auto.
      * rewrite HN by lia. destruct (Nat.ltb_spec g j), (Nat.ltb_spec g (S j)); auto; lia.
Qed.

Lemma ComposeSensitivity_raw (outer : spline V) (D : list nat) extract inverse bs (t : nat -> spline T) :
  wf outer ->
  all_basis_splines MAXB outer (length D) extract inverse = Ok bs ->
  (forall i, i < n_coeffs (degrees outer) ->
    tensor_spline MAXB bs (index_of (degrees outer) i) (length (degrees outer)) = Ok (t i)) ->
  ComposeNumeratorSensitivity MAXB outer D extract inverse = Ok (map t (seq 0 (n_coeffs (degrees outer)))).
Proof.
  intros Ho Eb HT. unfold ComposeNumeratorSensitivity. rewrite Eb. cbn [bind].
  pose proof Ho as (Hd & Hn & Hof & Hc). rewrite Hn.
  edestruct (for_up_inv (fun k ts => ts = map t (seq 0 k))) as (ts & E & Hts).
  3:{ rewrite E, Hts. reflexivity. }
  - reflexivity.
  - intros k ts Hk ->. cbv beta. rewrite LocalToGlobal_ok by exact Ho. cbn [bind].
    rewrite HT by lia. cbn [bind]. eexists. split; [reflexivity|]. now rewrite seq_S, map_app.
Qed.
End RawCompose.
