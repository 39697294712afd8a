(** Derivatives of rational splines: the values computed by EvaluateDerivative and
    BasisFunctionsDerivatives. *)
From Coq Require Import Arith Lia List ZArith NArith Bool Ring Field.
From Verif Require Import Prelude Scalar Spec SpecSpline Sums Coord ModelBasis ModelSpline ModelRational
  SpecRational ProofIndex ProofBasis ProofEval ProofElevate ProofArith ProofDeriv ProofDerivSpline
  ProofRational ProofLeibniz.
Import ListNotations.
Local Open Scope nat_scope.

Section RD.
Context {T V : Type} {o : SOps T} {ov : VOps T V} {F : SField T} {M : VMod T V}.
Add Field Tfield : (@sf_th T o F).
Add Ring Ering : (@ext_ring T V o ov F M).
Ltac vring := to_ext; ring.

(** Derivatives of numerator and weight function, and the quotient's recursion. *)
Definition nder (r : rspline T V) (xs : list T) (a : list nat) : V :=
  dmbez a (rdegrees r) xs (fun mi => nth (position (rdegrees r) mi) (control_points (weighted_spline r)) v0).
Definition wder (r : rspline T V) (xs : list T) (a : list nat) : T :=
  dmbez (V := T) a (rdegrees r) xs (fun mi => nth (position (rdegrees r) mi) (control_points (weight_function r)) s0).
Definition rder (r : rspline T V) (xs : list T) (orders : list nat) (i : nat) : V :=
  leib wbinom orders (fun j => wder r xs (index_of orders j)) (sdiv s1 (value_at (weight_function r) xs))
    (fun j => nder r xs (index_of orders j)) i.

Lemma wder_0 r xs : rwf r -> length xs = length (rdegrees r) ->
  wder r xs (repeat 0 (length (rdegrees r))) = value_at (weight_function r) xs.
Proof.
  intros (Hu & Hw & Hd) HX. unfold wder, value_at. rewrite Hd.
  exact (dmbez_0 (V := T) (rdegrees r) xs (fun i => nth i (control_points (weight_function r)) s0) HX).
Qed.
Lemma nder_0 r xs : rwf r -> length xs = length (rdegrees r) ->
  nder r xs (repeat 0 (length (rdegrees r))) = value_at (weighted_spline r) xs.
Proof.
  intros (Hu & Hw & Hd) HX. unfold nder, value_at.
  exact (dmbez_0 (rdegrees r) xs (fun i => nth i (control_points (weighted_spline r)) v0) HX).
Qed.
Lemma index_of_0 nd : index_of nd 0 = repeat 0 (length nd).
Proof. induction nd; auto. cbn [index_of length repeat]. rewrite Nat.mod_0_l, Nat.div_0_l by lia. now rewrite IHnd. Qed.

Context (MAXB : nat) (HB : MAXB <= 68).

Lemma R_EvaluateDerivative_ok (r : rspline T V) xs orders :
  rwf r -> rdomain r xs -> length orders = length (rdegrees r) ->
  Forall (fun p => p < MAXB) (rdegrees r) -> Forall (fun k => k < MAXB) orders ->
  R_EvaluateDerivative MAXB r xs orders = Ok (rder r xs orders (position orders orders)).
Proof.
  intros Hr (HX & H0) HO HM HMo. pose proof Hr as (Hu & Hw & Hd). unfold R_EvaluateDerivative.
  rewrite global_ids_ok by apply valid_refl. cbn [bind]. rewrite position_max.
  set (N := n_coeffs orders). assert (HN : 0 < N) by apply n_coeffs_pos.
  edestruct (for_up_inv (fun i '(A, w) => length A = N /\ length w = N /\
    forall j, j < i -> nth j A v0 = nder r xs (index_of orders j) /\ nth j w s0 = wder r xs (index_of orders j)))
    as ((A & w) & E & LA & Lw & HA).
  3:{ rewrite E. cbn [bind]. rewrite (get_ok s0) by lia. cbn [bind].
      assert (EW : nth 0 w s0 = value_at (weight_function r) xs).
      { rewrite (proj2 (HA 0 HN)), index_of_0, HO. apply wder_0; auto. }
      rewrite EW. rewrite divS_ok by auto. cbn [bind].
      set (inv := sdiv s1 (value_at (weight_function r) xs)).
      destruct (leibniz_loop_ok MAXB HB v0 (fun x c y => Ok (vsub x (vscale c y))) (fun x => Ok (vscale inv x))
        (fun _ => True) (fun phi => phi = (fun v => v)) orders A w inv) as (ds & Ed & Ld & HD); auto.
      { apply Forall_forall. auto. }
      { intros x c y _ _. eexists. split; [reflexivity|]. split; auto. intros phi ->. reflexivity. }
      { intros x _. eexists. split; [reflexivity|]. split; auto. intros phi ->. reflexivity. }
      fold N in Ed. rewrite Ed. cbn [bind]. rewrite (get_ok v0) by lia. f_equal.
      replace (N - 1) with (position orders orders) by (unfold N; rewrite <- position_max; lia).
      assert (HP : position orders orders < N) by (unfold N; rewrite <- position_max; lia).
      transitivity ((fun v : V => v) (nth (position orders orders) ds v0)); [reflexivity|].
      rewrite (proj2 (HD _ HP) (fun v => v) eq_refl). unfold rder. fold inv.
      symmetry. apply (leib_unique _ _ _ _ _ _ N); auto. intros i Hi. rewrite leib_eq.
      rewrite (proj1 (HA i ltac:(lia))). f_equal. f_equal. apply vsum_ext. intros j Hj. unfold lterm.
      destruct (subset _ _); auto. rewrite (proj2 (HA (S j) ltac:(lia))). reflexivity. }
  - cbv beta iota. rewrite !repeat_length. split; auto. split; auto. intros; lia.
  - intros i [A w] Hi (LA & Lw & HA). cbv beta iota. rewrite local_ids_ok. cbn [bind].
    assert (HLi : length (index_of orders i) = length (rdegrees r)) by (rewrite length_index_of; auto).
    rewrite (EvaluateDerivative_ok MAXB HB) by auto. cbn [bind]. rewrite set_ok by lia. cbn [bind].
    rewrite (EvaluateDerivative_ok (V := T) MAXB HB) by (auto; rewrite Hd; auto). cbn [bind]. rewrite set_ok by lia. cbn [bind].
    eexists. split; [reflexivity|]. cbv beta iota. rewrite !length_upd. split; auto. split; auto.
    intros j Hj. rewrite !nth_upd by lia. destruct (Nat.eqb_spec j i) as [->|].
    + split; [reflexivity|]. unfold wder. rewrite Hd. reflexivity.
    + apply HA. lia.
Qed.

(** ** Basis functions *)
Lemma BasisDer_ok (s : spline V) xs ks :
  wf s -> length xs = length (degrees s) -> length ks = length (degrees s) ->
  Forall (fun p => p < MAXB) (degrees s) ->
  BasisFunctionsDerivatives MAXB s xs ks = Ok (map (dbasis_at ks (degrees s) xs) (seq 0 (n_coeffs (degrees s)))).
Proof.
  intros Hw HX HK Hp. unfold BasisFunctionsDerivatives.
  rewrite (DerivContributions_ok MAXB HB) by auto. cbn [bind]. rewrite RecursiveCombine_ok.
  2:{ pose proof (wf_dim s Hw). destruct ks, (degrees s), xs; simpl in *; try lia; discriminate. }
  rewrite sizes_dbern by auto. f_equal. apply map_ext. intros i. apply tensor_dbern; auto.
Qed.

Lemma rows_sub n (x y : list T) c : length x = n -> length y = n ->
  exists z, for_up 0 n (fun i x => do a <- get x i; do b <- get y i; set x i (ssub a (smul c b))) x = Ok z /\
    length z = n /\ forall i, i < n -> nth i z s0 = ssub (nth i x s0) (smul c (nth i y s0)).
Proof.
  intros Hx Hy. edestruct (for_up_inv (fun i z => length z = n /\ forall j, j < n -> nth j z s0 =
    if j <? i then ssub (nth j x s0) (smul c (nth j y s0)) else nth j x s0)) as (z & E & L & HZ).
  3:{ exists z. split; [exact E|]. split; auto. intros i Hi. rewrite HZ by auto.
      rewrite (proj2 (Nat.ltb_lt i _)) by lia. reflexivity. }
  - split; auto.
  - intros i z Hi (L & HZ). cbv beta. rewrite (get_ok s0) by lia. cbn [bind]. rewrite (get_ok s0) by lia. cbn [bind].
    rewrite set_ok by lia. eexists. split; [reflexivity|]. rewrite length_upd. split; auto. intros j Hj.
    rewrite nth_upd by lia. destruct (Nat.eqb_spec j i) as [->|].
    + rewrite HZ by auto. rewrite (proj2 (Nat.ltb_ge i i)), (proj2 (Nat.ltb_lt i (S i))) by lia. reflexivity.
    + rewrite HZ by auto. destruct (Nat.ltb_spec j i), (Nat.ltb_spec j (S i)); auto; lia.
Qed.
Lemma rows_scale n (x : list T) c : length x = n ->
  exists z, for_up 0 n (fun i x => do a <- get x i; set x i (smul a c)) x = Ok z /\
    length z = n /\ forall i, i < n -> nth i z s0 = smul c (nth i x s0).
Proof.
  intros Hx. edestruct (for_up_inv (fun i z => length z = n /\ forall j, j < n -> nth j z s0 =
    if j <? i then smul c (nth j x s0) else nth j x s0)) as (z & E & L & HZ).
  3:{ exists z. split; [exact E|]. split; auto. intros i Hi. rewrite HZ by auto.
      rewrite (proj2 (Nat.ltb_lt i _)) by lia. reflexivity. }
  - split; auto.
  - intros i z Hi (L & HZ). cbv beta. rewrite (get_ok s0) by lia. cbn [bind].
    rewrite set_ok by lia. eexists. split; [reflexivity|]. rewrite length_upd. split; auto. intros j Hj.
    rewrite nth_upd by lia. destruct (Nat.eqb_spec j i) as [->|].
    + rewrite HZ by auto. rewrite (proj2 (Nat.ltb_ge i i)), (proj2 (Nat.ltb_lt i (S i))) by lia. ring.
    + rewrite HZ by auto. destruct (Nat.ltb_spec j i), (Nat.ltb_spec j (S i)); auto; lia.
Qed.

Lemma wder_flat r xs a : rwf r -> length xs = length (rdegrees r) -> length a = length (rdegrees r) ->
  wder r xs a = ssum (n_coeffs (rdegrees r)) (fun b => smul (nth b (control_points (weight_function r)) s0)
    (dbasis_at a (rdegrees r) xs b)).
Proof.
  intros Hr HX HA. unfold wder.
  rewrite (dmbez_flat (V := T) a (rdegrees r) xs (fun i => nth i (control_points (weight_function r)) s0)) by auto.
  rewrite ssum_vsum. apply vsum_ext. intros i Hi. simpl. ring.
Qed.

(** The recursion for the [b]-th basis function. *)
Definition bder (r : rspline T V) (xs : list T) (orders : list nat) (b i : nat) : T :=
  leib (V := T) wbinom orders (fun j => wder r xs (index_of orders j)) (sdiv s1 (value_at (weight_function r) xs))
    (fun j => smul (dbasis_at (index_of orders j) (rdegrees r) xs b) (nth b (control_points (weight_function r)) s0)) i.

Lemma R_BasisFunctionsDerivatives_ok (r : rspline T V) xs orders :
  rwf r -> rdomain r xs -> length orders = length (rdegrees r) ->
  Forall (fun p => p < MAXB) (rdegrees r) -> Forall (fun k => k < MAXB) orders ->
  exists bs, R_BasisFunctionsDerivatives MAXB r xs orders = Ok bs /\ length bs = n_coeffs (rdegrees r) /\
    forall b, b < n_coeffs (rdegrees r) -> nth b bs s0 = bder r xs orders b (position orders orders).
Proof.
  intros Hr (HX & H0) HO HM HMo. pose proof Hr as (Hu & Hw & Hd). unfold R_BasisFunctionsDerivatives.
  rewrite global_ids_ok by apply valid_refl. cbn [bind]. rewrite position_max.
  set (N := n_coeffs orders). assert (HN : 0 < N) by apply n_coeffs_pos.
  assert (HNC : number_of_control_points (weighted_spline r) = n_coeffs (rdegrees r)) by apply Hu.
  rewrite HNC. set (n := n_coeffs (rdegrees r)).
  assert (HLw : length (control_points (weight_function r)) = n).
  { destruct Hw as (_ & _ & _ & ->). unfold n. now rewrite Hd. }
  set (ws := fun b => nth b (control_points (weight_function r)) s0).
  edestruct (for_up_inv (fun i '(A, w) => length A = N /\ length w = N /\
    (forall j, i <= j -> nth j w s0 = s0) /\
    forall j, j < i -> length (nth j A []) = n /\
      (forall b, b < n -> nth b (nth j A []) s0 = smul (dbasis_at (index_of orders j) (rdegrees r) xs b) (ws b)) /\
      nth j w s0 = wder r xs (index_of orders j)))
    as ((A & w) & E & LA & Lw & _ & HA).
  3:{ rewrite E. cbn [bind]. rewrite (get_ok s0) by lia. cbn [bind].
      assert (EW : nth 0 w s0 = value_at (weight_function r) xs).
      { rewrite (proj2 (proj2 (HA 0 HN))), index_of_0, HO. apply wder_0; auto. }
      rewrite EW. rewrite divS_ok by auto. cbn [bind].
      set (inv := sdiv s1 (value_at (weight_function r) xs)).
      edestruct (leibniz_loop_ok (V := T) MAXB HB (@nil T)
        (fun x c y => for_up 0 n (fun i x => do a <- get x i; do b <- get y i; set x i (ssub a (smul c b))) x)
        (fun x => for_up 0 n (fun i x => do a <- get x i; set x i (smul a inv)) x)
        (fun x => length x = n) (fun phi => exists b, b < n /\ phi = (fun x => nth b x s0)) orders A w inv)
        as (ds & Ed & Ld & HD); auto.
      { apply Forall_forall. intros x Hx. destruct (In_nth _ _ [] Hx) as (j & Hj & <-). apply HA. lia. }
      { intros x c y Lx Ly. destruct (rows_sub n x y c Lx Ly) as (z & Ez & Lz & Hz). exists z.
        split; [exact Ez|]. split; auto. intros phi (b & Hb & ->). apply Hz; auto. }
      { intros x Lx. destruct (rows_scale n x inv Lx) as (z & Ez & Lz & Hz). exists z.
        split; [exact Ez|]. split; auto. intros phi (b & Hb & ->). apply Hz; auto. }
      fold N in Ed. rewrite Ed. cbn [bind]. rewrite (get_ok []) by lia. eexists. split; [reflexivity|].
      assert (HP : position orders orders < N) by (unfold N; rewrite <- position_max; lia).
      replace (N - 1) with (position orders orders) by (unfold N; rewrite <- position_max; lia).
      destruct (HD _ HP) as (HL & HV). split; auto. intros b Hb.
      transitivity ((fun x : list T => nth b x s0) (nth (position orders orders) ds [])); [reflexivity|].
      rewrite (HV (fun x => nth b x s0)) by (exists b; auto). unfold bder. fold inv.
      symmetry. apply (leib_unique _ _ _ _ _ _ N); auto. intros i Hi. rewrite leib_eq.
      rewrite (proj1 (proj2 (HA i ltac:(lia)))) by auto. fold (ws b).
      f_equal. f_equal. apply vsum_ext. intros j Hj. unfold lterm.
      destruct (subset _ _); auto. rewrite (proj2 (proj2 (HA (S j) ltac:(lia)))). reflexivity. }
  - cbv beta iota. rewrite !repeat_length. split; auto. split; auto. split; [intros; apply nth_repeat|]. intros; lia.
  - intros i [A w] Hi (LA & Lw & HZ & HA). cbv beta iota. rewrite local_ids_ok. cbn [bind].
    assert (HLi : length (index_of orders i) = length (rdegrees r)) by (rewrite length_index_of; auto).
    rewrite BasisDer_ok by auto. cbn [bind]. rewrite set_ok by lia. cbn [bind].
    change (degrees (weighted_spline r)) with (rdegrees r). fold n.
    set (row := map (dbasis_at (index_of orders i) (rdegrees r) xs) (seq 0 n)).
    assert (Lrow : length row = n) by (unfold row; rewrite map_length, seq_length; auto).
    assert (Hrow : forall b, b < n -> nth b row s0 = dbasis_at (index_of orders i) (rdegrees r) xs b).
    { intros b Hb. unfold row. rewrite nth_map_seq by auto. reflexivity. }
    edestruct (for_up_inv (fun m '(A', w') => length A' = N /\ length w' = N /\
      (forall j, j <> i -> nth j A' [] = nth j A [] /\ nth j w' s0 = nth j w s0) /\
      length (nth i A' []) = n /\
      (forall b, b < n -> nth b (nth i A' []) s0 = if b <? m then smul (nth b row s0) (ws b) else nth b row s0) /\
      nth i w' s0 = ssum m (fun b => smul (ws b) (nth b row s0)))) as ((A' & w') & E & LA' & Lw' & HO' & Li & Hb' & HI).
    3:{ rewrite E. eexists. split; [reflexivity|]. cbv beta iota. split; auto. split; auto. split.
        { intros j Hj. rewrite (proj2 (HO' j ltac:(lia))). apply HZ. lia. }
        intros j Hj. destruct (Nat.eq_dec j i) as [->|].
        - split; auto. split.
          + intros b Hb. rewrite Hb' by auto. rewrite (proj2 (Nat.ltb_lt b _)) by lia. rewrite Hrow by auto. reflexivity.
          + rewrite HI, Nat.add_0_l. rewrite wder_flat by auto. apply ssum_ext. intros b Hb. rewrite Hrow by auto. reflexivity.
        - destruct (HO' j) as (-> & ->); auto. apply HA. lia. }
    + cbv beta iota. rewrite length_upd. split; auto. split; auto.
      split; [intros j Hj; rewrite nth_upd_other by auto; auto|]. rewrite nth_upd_same by lia. split; auto.
    + intros b [A' w'] Hb (LA' & Lw' & HO' & Li & Hb' & HI). cbv beta iota.
      rewrite (get_ok s0) by lia. cbn [bind]. rewrite (get_ok []) by lia. cbn [bind].
      rewrite (get_ok s0) by lia. cbn [bind]. rewrite (get_ok s0) by lia. cbn [bind].
      rewrite set_ok by lia. cbn [bind]. rewrite set_ok by lia. cbn [bind]. rewrite set_ok by lia. cbn [bind].
      eexists. split; [reflexivity|]. cbv beta iota. rewrite !length_upd. split; auto. split; auto. split.
      { intros j Hj. rewrite !nth_upd_other by auto. auto. }
      rewrite !nth_upd_same by lia. rewrite length_upd. split; auto. rewrite (Hb' b) by lia.
      rewrite (proj2 (Nat.ltb_ge b b)) by lia. split.
      * intros b' Hlt. rewrite nth_upd by lia. destruct (Nat.eqb_spec b' b) as [->|].
        -- rewrite (proj2 (Nat.ltb_lt b (S b))) by lia. reflexivity.
        -- rewrite Hb' by auto. destruct (Nat.ltb_spec b' b), (Nat.ltb_spec b' (S b)); auto; lia.
      * rewrite HI. reflexivity.
Qed.

(** The weighted sum of the basis recursions is the recursion of the spline. *)
Lemma bder_sum (r : rspline T V) xs orders (pts : list V) :
  length xs = length (rdegrees r) -> length orders = length (rdegrees r) ->
  (forall b, b < n_coeffs (rdegrees r) -> nth b (control_points (weighted_spline r)) v0 =
     vscale (nth b (control_points (weight_function r)) s0) (nth b pts v0)) ->
  vsum (n_coeffs (rdegrees r)) (fun b => vscale (bder r xs orders b (position orders orders)) (nth b pts v0)) =
  rder r xs orders (position orders orders).
Proof.
  intros HX HO HP. unfold rder.
  set (D := fun i => vsum (n_coeffs (rdegrees r)) (fun b => vscale (bder r xs orders b i) (nth b pts v0))).
  change (D (position orders orders) = leib wbinom orders (fun j => wder r xs (index_of orders j))
    (sdiv s1 (value_at (weight_function r) xs)) (fun j => nder r xs (index_of orders j)) (position orders orders)).
  apply (leib_unique _ _ _ _ _ _ (S (position orders orders))); [|lia].
  intros i Hi. unfold D.
  set (inv := sdiv s1 (value_at (weight_function r) xs)). set (W := fun j => wder r xs (index_of orders j)).
  set (n := n_coeffs (rdegrees r)).
  assert (EA : nder r xs (index_of orders i) = vsum n (fun b => vscale (smul
    (dbasis_at (index_of orders i) (rdegrees r) xs b) (nth b (control_points (weight_function r)) s0)) (nth b pts v0))).
  { unfold nder. rewrite (dmbez_flat _ _ _ (fun g => nth g (control_points (weighted_spline r)) v0))
      by (auto; rewrite length_index_of; auto).
    apply vsum_ext. intros b Hb. rewrite HP by auto. symmetry. apply vm_mul. }
  rewrite EA.
  transitivity (vsum n (fun b => vscale inv (vsub
    (vscale (smul (dbasis_at (index_of orders i) (rdegrees r) xs b) (nth b (control_points (weight_function r)) s0)) (nth b pts v0))
    (vsum i (fun j => lterm wbinom orders W (fun g => vscale (bder r xs orders b g) (nth b pts v0)) i (S j)))))).
  - apply vsum_ext. intros b Hb. unfold bder at 1. rewrite leib_eq. fold inv W.
    change (leib wbinom orders W inv _) with (bder r xs orders b).
    set (A := smul (dbasis_at _ _ _ _) _).
    assert (ES : vsum i (fun j => lterm wbinom orders W (fun g => vscale (bder r xs orders b g) (nth b pts v0)) i (S j)) =
      vscale (vsum (V := T) i (fun j => lterm (V := T) wbinom orders W (bder r xs orders b) i (S j))) (nth b pts v0)).
    { rewrite <- (ssum_vsum (T := T)). rewrite <- (vsum_scale_l i). apply vsum_ext. intros j Hj. unfold lterm.
      destruct (subset _ _); [|simpl; vring]. rewrite vm_mul. symmetry. 
      etransitivity; [apply (vm_mul (sofN (wbinom (index_of orders i) (index_of orders (S j))) * W (S j))%s)|].
      rewrite vm_mul. reflexivity. }
    rewrite ES. set (sm := vsum i _). cbn [vscale vsub VOps_scalar]. vring.
  - rewrite vsum_scale. f_equal. rewrite vsum_sub. f_equal. rewrite vsum_swap. apply vsum_ext. intros j Hj.
    unfold lterm. destruct (subset _ _).
    + rewrite <- vsum_scale. reflexivity.
    + apply vsum_zero. auto.
Qed.
End RD.
