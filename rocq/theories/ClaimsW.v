(** Claims about rules of differentiation for derivative splines. *)
From Coq Require Import Arith Lia List ZArith NArith Bool Ring Field Reals Lra.
From Verif Require Import Prelude Scalar Spec SpecSpline SpecReal SpecLaws Sums Order Coord ModelBasis ModelSpline ModelPoint
  ModelRational SpecRational ProofIndex ProofBasis ProofEval ProofElevate ProofUnique ClaimsA ProofArith ClaimsB ProofCube ClaimsC
  ProofMul ProofSplit ClaimsD ProofCompose ClaimsE ProofDeriv ProofDerivSpline ProofReal ClaimsF ClaimsI ProofLaws ClaimsV ProofLawsReal.
Import ListNotations.
Local Open Scope nat_scope.

Lemma c75_separated : separated (V := R) /\ forall d : nat, separated (V := point R d).
Proof. split; [apply separated_scalar|apply separated_point]. Qed.

Lemma c75_repeated : forall (V : Type) (ov : VOps R V) (M : VMod R V) (MAXB : nat) (s : spline V) (o1 o2 : list nat),
  separated (V := V) -> MAXB <= 68 -> wf s -> length o1 = length (degrees s) -> length o2 = length (degrees s) ->
  Forall2 le (map2 Nat.add o1 o2) (degrees s) -> Forall (fun k => k < MAXB) (map2 Nat.add o1 o2) ->
  exists a r, DerivativeWRT MAXB s o1 = Ok a /\ DerivativeWRT MAXB a o2 = Ok r /\
    DerivativeWRT MAXB s (map2 Nat.add o1 o2) = Ok r.
Proof.
  intros V ov M MAXB s o1 o2 HSep HB Hs L1 L2 Hle HM. set (D := degrees s) in *.
  assert (Le1 : Forall2 le o1 D) by (eapply le_trans2; [|exact Hle]; apply add_le_l; congruence).
  assert (Le2 : Forall2 le o2 (map2 Nat.sub D o1)).
  { apply Forall2_nth_le; [rewrite length_map2; congruence|]. intros j Hj.
    pose proof (le_nth _ _ Hle j) as A. rewrite nth_map2_add in A by lia. rewrite nth_map2_sub by lia. lia. }
  destruct (deriv_isv MAXB s D _ o1 HB (isv_self s Hs) L1 Le1) as (a & f & E1 & H1 & X1).
  { eapply Forall_le_lt; [|exact HM]. apply add_le_l. congruence. }
  destruct (deriv_isv MAXB a _ _ o2 HB H1) as (r & g & E2 & H2 & X2).
  { rewrite length_map2; congruence. } { exact Le2. }
  { eapply Forall_le_lt; [|exact HM]. rewrite map2_add_comm. apply add_le_l. congruence. }
  exists a, r. do 2 (split; auto). pose proof (cdirs_directions o1) as D1. pose proof (cdirs_directions o2) as D2.
  set (d1 := cdirs o1 (length o1)) in *. set (d2 := cdirs o2 (length o2)) in *.
  eapply (deriv_is MAXB s r D _ _ _ _ (d1 ++ d2) HSep HB (isv_self s Hs)); try eassumption.
  - rewrite length_map2_add; congruence.
  - destruct D1 as (F1 & C1), D2 as (F2 & C2). split.
    + rewrite length_map2_add by congruence. apply Forall_app. split; auto. rewrite L1, <- L2. auto.
    + rewrite length_map2_add by congruence. intros k Hk. rewrite count_occ_app, C1, C2 by lia. rewrite nth_map2_add by lia. auto.
  - apply sub_sub; auto.
  - intros phi HP. destruct D1 as (F1 & C1), D2 as (F2 & C2).
    eapply (mixed_app (length D)); [apply open_length|now rewrite <- L1|now rewrite <- L2|apply X1; auto; split; auto|].
    assert (EL : length (map2 Nat.sub D o1) = length D) by (apply length_map2; congruence).
    specialize (X2 phi d2 HP (conj F2 C2)). cbv beta in X2. rewrite EL in X2. exact X2.
Qed.

Lemma c75_linear : forall (V : Type) (ov : VOps R V) (M : VMod R V) (MAXB : nat) (a b : spline V) (orders : list nat) (c : R),
  separated (V := V) -> MAXB <= 68 -> wf a -> wf b -> length (degrees b) = length (degrees a) ->
  length orders = length (degrees a) -> Forall2 le orders (degrees a) -> Forall2 le orders (degrees b) ->
  Forall (fun k => k < MAXB) orders ->
  (Z.of_nat (n_coeffs (map2 Nat.max (degrees a) (degrees b))) < 2 ^ 31)%Z ->
  exists s ca da db r dca, returns (fun fuel => spline_add (T := R) fuel a b) s /\ spline_scale a c = Ok ca /\
    DerivativeWRT MAXB a orders = Ok da /\ DerivativeWRT MAXB b orders = Ok db /\
    returns (fun fuel => spline_add (T := R) fuel da db) r /\ DerivativeWRT MAXB s orders = Ok r /\
    spline_scale da c = Ok dca /\ DerivativeWRT MAXB ca orders = Ok dca.
Proof.
  intros V ov M MAXB a b orders c HSep HB Ha Hb HL LO Lea Leb HM HS.
  pose proof (isv_self (T := R) a Ha) as Ia. pose proof (isv_self (T := R) b Hb) as Ib.
  destruct (add_isv a b _ _ _ _ Ia Ib (eq_sym HL) HS) as (s & Es & Hs).
  destruct (scale_isv c a _ _ Ia) as (ca & Ec & Hc).
  destruct (deriv_isv MAXB a _ _ orders HB Ia LO Lea HM) as (da & f & Eda & Hda & Xa).
  destruct (deriv_isv MAXB b _ _ orders HB Ib) as (db & g & Edb & Hdb & Xb); auto; [congruence|].
  assert (LM : length (map2 Nat.max (degrees a) (degrees b)) = length (degrees a)) by (apply len_max; auto).
  destruct (add_isv da db _ _ _ _ Hda Hdb) as (r & Er & Hr).
  { rewrite !length_map2; congruence. }
  { eapply size_le; [|exact HS]. rewrite <- sub_max by congruence. apply sub_le. congruence. }
  destruct (scale_isv c da _ _ Hda) as (dca & Edc & Hdc).
  exists s, ca, da, db, r, dca. do 5 (split; auto). pose proof (cdirs_directions orders) as DD. split; [|split; auto].
  - eapply (deriv_is MAXB s r _ _ _ _ _ _ HSep HB Hs); try eassumption; [congruence| | |].
    + eapply le_trans2; [exact Lea|]. apply max_le_l. auto.
    + symmetry. apply sub_max; auto.
    + intros phi HP. rewrite LM. cbv beta. destruct HP as (HA & HC).
      specialize (Xa phi _ (conj HA HC) DD). specialize (Xb phi _ (conj HA HC) DD). rewrite HL in Xb.
      pose proof (mixed_plus _ _ _ _ _ _ Xa Xb) as X.
      eapply mixed_ext; [| |exact X]; intros; cbv beta; now rewrite HA.
  - eapply (deriv_is MAXB ca dca _ _ _ _ _ _ HSep HB Hc); try eassumption; [reflexivity|].
    intros phi HP. destruct HP as (HA & HC). pose proof (mixed_scal _ _ c _ _ (Xa phi _ (conj HA HC) DD)) as X.
    eapply mixed_ext; [| |exact X]; intros; cbv beta; now rewrite HC.
Qed.

Lemma sub_upd D : forall O k, length O = length D -> Forall2 le O D -> k < length D ->
  map2 Nat.sub (upd_list D k (S (nth k D 0))) O = upd_list (map2 Nat.sub D O) k (S (nth k (map2 Nat.sub D O) 0)).
Proof.
  induction D as [|x D IH]; intros [|y O] k H HL Hk; try discriminate; simpl in Hk; [lia|]. inversion HL; subst.
  destruct k; cbn [upd_list map2 nth]; f_equal; [lia|]. apply IH; auto; simpl in *; lia.
Qed.
Lemma upd_le D k : k < length D -> Forall2 le D (upd_list D k (S (nth k D 0))).
Proof.
  intros Hk. apply Forall2_nth_le; [now rewrite length_upd|]. intros j Hj. rewrite nth_upd by auto.
  destruct (Nat.eqb_spec j k) as [->|]; lia.
Qed.
Lemma sub_mono A B O : Forall2 le A B -> length O = length A -> Forall2 le (map2 Nat.sub A O) (map2 Nat.sub B O).
Proof. intros H. revert O. induction H; intros [|c O] HL; try discriminate; constructor; [lia|]. apply IHForall2. simpl in HL; lia. Qed.

Lemma c75_elevation : forall (V : Type) (ov : VOps R V) (M : VMod R V) (MAXB : nat) (s : spline V) (orders : list nat) (k : nat),
  separated (V := V) -> MAXB <= 68 -> wf s -> length orders = length (degrees s) -> Forall2 le orders (degrees s) ->
  Forall (fun k => k < MAXB) orders -> k < length (degrees s) ->
  (Z.of_nat (n_coeffs (upd_list (degrees s) k (S (nth k (degrees s) 0%nat)))) < 2 ^ 31)%Z ->
  exists e d r, OrderElevate (T := R) s k = Ok e /\ DerivativeWRT MAXB s orders = Ok d /\
    OrderElevate (T := R) d k = Ok r /\ DerivativeWRT MAXB e orders = Ok r.
Proof.
  intros V ov M MAXB s orders k HSep HB Hs LO Le HM Hk HZ. pose proof (isv_self (T := R) s Hs) as Is.
  destruct (elevate_isv s _ _ k Is Hk HZ) as (e & Ee & He).
  destruct (deriv_isv MAXB s _ _ orders HB Is LO Le HM) as (d & g & Ed & Hd & X).
  assert (LD : length (map2 Nat.sub (degrees s) orders) = length (degrees s)) by (apply length_map2; auto).
  destruct (elevate_isv d _ _ k Hd) as (r & Er & Hr); [lia| |].
  { rewrite <- sub_upd by auto. eapply size_le; [|exact HZ]. apply sub_le. now rewrite length_upd. }
  exists e, d, r. do 3 (split; auto). pose proof (cdirs_directions orders) as DD.
  eapply (deriv_is MAXB e r _ _ _ _ _ _ HSep HB He); try eassumption; [now rewrite length_upd| |symmetry; apply sub_upd; auto|].
  - eapply le_trans2; [exact Le|apply upd_le; auto].
  - intros phi HP. rewrite length_upd. apply X; auto.
Qed.

(** Derivative along a direction after an affine change of that parameter. *)
Lemma dlim_affine (h : R -> R) (a b y l : R) : derivable_pt_lim h (a + b * y)%R l ->
  derivable_pt_lim (fun t => h (a + b * t)%R) y (b * l)%R.
Proof.
  intros H. eapply dlim_ext; [| |apply (derivable_pt_lim_comp (fun t => a + b * t)%R h y b l)]; [reflexivity|ring| |exact H].
  eapply dlim_ext; [| |apply (dlim_plus (fun _ => a) (fun t => b * t)%R y 0 (b * 1))]; [reflexivity|ring|apply dlim_const|].
  apply (dlim_scal b (fun t => t)). apply dlim_id.
Qed.
Lemma upd_comm {A} (l : list A) i j x y : i <> j -> upd_list (upd_list l i x) j y = upd_list (upd_list l j y) i x.
Proof. revert i j. induction l as [|a l IH]; intros [|i] [|j] H; auto; try congruence. cbn [upd_list]. f_equal. apply IH. lia. Qed.
Lemma upd_upd {A} (l : list A) i x y : upd_list (upd_list l i x) i y = upd_list l i y.
Proof. revert i. induction l as [|a l IH]; intros [|i]; auto. cbn [upd_list]. f_equal. apply IH. Qed.

Lemma partial_affine n (f g : list R -> R) k j a b : k < n -> j < n ->
  partial (fun xs => length xs = n) j f g ->
  partial (fun xs => length xs = n) j (fun xs => f (upd_list xs k (a + b * nth k xs 0)%R))
    (fun xs => ((if j =? k then b else 1) * g (upd_list xs k (a + b * nth k xs 0)%R))%R).
Proof.
  intros Hk Hj HP xs HX. cbv beta. destruct (Nat.eqb_spec j k) as [->|Hne].
  - assert (HP' := HP (upd_list xs k (a + b * nth k xs 0)%R)). cbv beta in HP'. rewrite length_upd in HP'. specialize (HP' HX).
    rewrite nth_upd_same in HP' by lia.
    eapply dlim_ext; [| |apply (dlim_affine (fun y => f (upd_list xs k y)) a b (nth k xs 0%R))]; [|reflexivity|].
    + intros y. cbv beta. rewrite upd_upd, nth_upd_same by lia. reflexivity.
    + eapply dlim_ext; [|reflexivity|exact HP']. intros y. cbv beta. now rewrite upd_upd.
  - assert (HP' := HP (upd_list xs k (a + b * nth k xs 0)%R)). cbv beta in HP'. rewrite length_upd in HP'. specialize (HP' HX).
    rewrite nth_upd_other in HP' by lia. eapply dlim_ext; [| |exact HP']; [|ring].
    intros y. cbv beta. rewrite nth_upd_other by lia. rewrite upd_comm by lia. reflexivity.
Qed.

Lemma c75_split : forall (V : Type) (ov : VOps R V) (M : VMod R V) (MAXB : nat) (s : spline V) (x : R) (k j : nat),
  separated (V := V) -> 1 < MAXB <= 68 -> wf s -> k < length (degrees s) -> j < length (degrees s) ->
  1 <= nth j (degrees s) 0 -> (0 < x < 1)%R ->
  exists a b d da db ra rb, let n := length (degrees s) in
    SplitAtPosition s x k = Ok [a; b] /\ DerivativeWRT MAXB s (single n j) = Ok d /\
    SplitAtPosition d x k = Ok [da; db] /\
    spline_scale da (if j =? k then x else 1%R) = Ok ra /\ DerivativeWRT MAXB a (single n j) = Ok ra /\
    spline_scale db (if j =? k then (1 - x)%R else 1%R) = Ok rb /\ DerivativeWRT MAXB b (single n j) = Ok rb.
Proof.
  intros V ov M MAXB s x k j HSep (H1B & HB) Hs Hk Hj H1 (H0x & Hx1). pose proof (isv_self (T := R) s Hs) as Is. cbv zeta.
  set (n := length (degrees s)) in *. set (e := single n j).
  assert (S0 : slt (s0 : R) x) by (unfold slt; simpl; destruct (Rlt_dec R0 x) as [|NN]; [reflexivity|elim NN; exact H0x]). assert (S1 : slt x (s1 : R)) by (unfold slt; simpl; destruct (Rlt_dec x R1) as [|NN]; [reflexivity|elim NN; exact Hx1]).
  assert (Le : Forall2 le e (degrees s)) by (apply single_le; auto).
  assert (Ll : length e = length (degrees s)) by apply length_single.
  assert (Lt : Forall (fun p => p < MAXB) e) by (apply single_lt; auto).
  destruct (split_isv s _ _ x k Is Hk S0 S1) as (a & b & Es & Ha & Hb).
  destruct (deriv_isv MAXB s _ _ e HB Is Ll Le Lt) as (d & g & Ed & Hd & X).
  assert (LD : length (map2 Nat.sub (degrees s) e) = n) by (apply length_map2; auto).
  destruct (split_isv d _ _ x k Hd ltac:(lia) S0 S1) as (da & db & Esd & Hda & Hdb).
  destruct (scale_isv (if j =? k then x else 1%R) da _ _ Hda) as (ra & Era & Hra).
  destruct (scale_isv (if j =? k then (1 - x)%R else 1%R) db _ _ Hdb) as (rb & Erb & Hrb).
  assert (DD : directions_of e [j]) by (apply single_dirs; auto).
  exists a, b, d, da, db, ra, rb. do 4 (split; auto). split; [|split; auto].
  - eapply (deriv_is MAXB a ra _ _ _ _ _ _ HSep HB Ha); try eassumption; [reflexivity|]. fold n.
    intros phi (HA & HC). apply (mixed_one _ n j); auto; [apply open_length|]. fold n in X.
    pose proof (proj1 (mixed_one _ n j _ _ (open_length n) Hj) (X phi [j] (conj HA HC) DD)) as P.
    pose proof (partial_affine n _ _ k j 0%R x Hk Hj P) as Q.
    intros xs HX. eapply dlim_ext; [| |apply (Q xs HX)]; cbv beta.
    + intros y. do 3 f_equal. change (smul x (nth k (upd_list xs j y) s0)) with (x * nth k (upd_list xs j y) 0)%R. ring.
    + rewrite HC. f_equal. do 3 f_equal. change (smul x (nth k xs s0)) with (x * nth k xs 0)%R. ring.
  - eapply (deriv_is MAXB b rb _ _ _ _ _ _ HSep HB Hb); try eassumption; [reflexivity|]. fold n.
    intros phi (HA & HC). apply (mixed_one _ n j); auto; [apply open_length|]. fold n in X.
    pose proof (proj1 (mixed_one _ n j _ _ (open_length n) Hj) (X phi [j] (conj HA HC) DD)) as P.
    pose proof (partial_affine n _ _ k j x (1 - x)%R Hk Hj P) as Q.
    intros xs HX. eapply dlim_ext; [| |apply (Q xs HX)]; cbv beta.
    + intros y. reflexivity.
    + rewrite HC. reflexivity.
Qed.

Lemma partial_mult (D : list R -> Prop) k (f g f' g' : list R -> R) : (forall xs, D xs -> k < length xs) -> partial D k f f' -> partial D k g g' ->
  partial D k (fun xs => (f xs * g xs)%R) (fun xs => (f' xs * g xs + f xs * g' xs)%R).
Proof.
  intros Hk P Q xs HX. pose proof (dlim_mult _ _ _ _ _ (P xs HX) (Q xs HX)) as A. cbv beta in A.
  eapply dlim_ext; [| |exact A]; [reflexivity|]. rewrite !(upd_list_same 0%R) by auto. reflexivity.
Qed.

Lemma c75_product : forall (V : Type) (ov : VOps R V) (M : VMod R V) (MAXB : nat) (P : spline R) (Q : spline V) (k : nat),
  separated (V := V) -> 1 < MAXB <= 68 -> wf P -> wf Q -> length (degrees Q) = length (degrees P) ->
  Forall (fun p => p < MAXB) (map2 Nat.add (degrees P) (degrees Q)) ->
  (Z.of_nat (n_coeffs (map2 Nat.add (degrees P) (degrees Q))) < 2 ^ 31)%Z ->
  k < length (degrees P) -> 1 <= nth k (degrees P) 0 -> 1 <= nth k (degrees Q) 0 ->
  exists pq dp dq u v r, let e := single (length (degrees P)) k in
    spline_mul_sv MAXB P Q = Ok pq /\ DerivativeWRT MAXB P e = Ok dp /\ DerivativeWRT MAXB Q e = Ok dq /\
    spline_mul_sv MAXB dp Q = Ok u /\ spline_mul_sv MAXB P dq = Ok v /\
    returns (fun fuel => spline_add (T := R) fuel u v) r /\ DerivativeWRT MAXB pq e = Ok r.
Proof.
  intros V ov M MAXB P Q k HSep (H1B & HB) HP HQ HL HF HZ Hk H1 H2. cbv zeta.
  set (n := length (degrees P)) in *. set (e := single n k).
  pose proof (isv_self (T := R) P HP) as IP. pose proof (isv_self (T := R) Q HQ) as IQ.
  assert (Le : length e = n) by apply length_single. assert (Lt : Forall (fun p => p < MAXB) e) by (apply single_lt; auto).
  assert (LeP : Forall2 le e (degrees P)) by (apply single_le; auto).
  assert (LeQ : Forall2 le e (degrees Q)) by (apply single_le; auto).
  assert (DD : directions_of e [k]) by (apply single_dirs; auto).
  assert (EN : length (degrees P) = n) by reflexivity. clearbody e. clearbody n.
  destruct (mul_isv (fun c p => vscale c p) MAXB P Q _ _ _ _ HB IP IQ (eq_trans HL (eq_sym EN)) HF) as (pq & E1 & I1).
  destruct (deriv_isv MAXB P _ _ e HB IP (eq_trans Le (eq_sym EN)) LeP Lt) as (dp & f & E2 & I2 & X2).
  destruct (deriv_isv MAXB Q _ _ e HB IQ) as (dq & g & E3 & I3 & X3); auto; [congruence|].
  assert (ED1 : map2 Nat.add (map2 Nat.sub (degrees P) e) (degrees Q) = map2 Nat.sub (map2 Nat.add (degrees P) (degrees Q)) e)
    by (apply sub_add_l; auto; congruence).
  assert (ED2 : map2 Nat.add (degrees P) (map2 Nat.sub (degrees Q) e) = map2 Nat.sub (map2 Nat.add (degrees P) (degrees Q)) e).
  { rewrite (map2_add_comm (degrees P)), (map2_add_comm (degrees P)). apply sub_add_l; auto; congruence. }
  assert (LPQ : length (map2 Nat.add (degrees P) (degrees Q)) = n) by (rewrite length_map2_add; congruence).
  assert (HFD : Forall (fun p => p < MAXB) (map2 Nat.sub (map2 Nat.add (degrees P) (degrees Q)) e)).
  { eapply Forall_le_lt; [|exact HF]. apply sub_le. congruence. }
  destruct (mul_isv (fun c p => vscale c p) MAXB dp Q _ _ _ _ HB I2 IQ) as (u & E4 & I4).
  { rewrite length_map2; congruence. } { now rewrite ED1. }
  destruct (mul_isv (fun c p => vscale c p) MAXB P dq _ _ _ _ HB IP I3) as (v & E5 & I5).
  { rewrite length_map2; congruence. } { now rewrite ED2. }
  rewrite ED1 in I4. rewrite ED2 in I5.
  destruct (add_isv u v _ _ _ _ I4 I5 eq_refl) as (r & E6 & I6).
  { rewrite map2_max_same. eapply size_le; [|exact HZ]. apply sub_le. congruence. }
  rewrite map2_max_same in I6. exists pq, dp, dq, u, v, r. do 6 (split; auto).
  eapply (deriv_is MAXB pq r _ _ _ _ _ _ HSep HB I1); try eassumption; [congruence| |reflexivity|].
  - eapply le_trans2; [exact LeP|]. apply add_le_l. congruence.
  - intros phi (HA & HC). rewrite LPQ. apply (mixed_one _ n k); auto; [apply open_length|]. rewrite HL in X3. rewrite EN in X2.
    pose proof (proj1 (mixed_one _ n k _ _ (open_length n) Hk) (X2 (fun y => y) [k] (conj (fun _ _ => eq_refl) (fun _ _ => eq_refl)) DD)) as PP.
    pose proof (proj1 (mixed_one _ n k _ _ (open_length n) Hk) (X3 phi [k] (conj HA HC) DD)) as QQ.
    pose proof (partial_mult _ k _ _ _ _ (fun xs (H : length xs = n) => eq_ind_r (fun m => k < m) Hk H) PP QQ) as A.
    intros xs HX. eapply dlim_ext; [| |apply (A xs HX)]; cbv beta.
    + intros y. now rewrite HC.
    + now rewrite HA, !HC.
Qed.

Lemma partial_spow (D : list R -> Prop) k (f f' : list R -> R) n : (forall xs, D xs -> k < length xs) -> partial D k f f' ->
  partial D k (fun xs => spow (f xs) n) (fun xs => (INR n * (spow (f xs) (n - 1) * f' xs))%R).
Proof.
  intros Hk P. induction n as [|n IH].
  - intros xs HX. cbv beta. cbn [spow INR]. eapply dlim_ext; [| |apply (dlim_const 1%R)]; [reflexivity|ring].
  - pose proof (partial_mult D k _ _ _ _ Hk P IH) as A. intros xs HX. eapply dlim_ext; [| |apply (A xs HX)]; cbv beta.
    + intros y. reflexivity.
    + replace (S n - 1) with n by lia. rewrite S_INR. destruct n as [|n]; [cbn [spow INR Nat.sub]; simpl; ring|].
      replace (S n - 1) with n by lia. cbn [spow]. change (smul (f xs) (spow (f xs) n)) with (f xs * spow (f xs) n)%R. ring.
Qed.

Lemma c75_power : forall (MAXB n : nat) (P : spline R) (k : nat),
  1 < MAXB <= 68 -> wf P -> 1 <= n -> Forall (fun p => n * p < MAXB) (degrees P) ->
  k < length (degrees P) -> 1 <= nth k (degrees P) 0 ->
  exists pn pm dp u r, let e := single (length (degrees P)) k in
    RaisePower MAXB P n = Ok pn /\ RaisePower MAXB P (n - 1) = Ok pm /\ DerivativeWRT MAXB P e = Ok dp /\
    spline_mul_ss MAXB pm dp = Ok u /\ spline_scale u (INR n) = Ok r /\ DerivativeWRT MAXB pn e = Ok r.
Proof.
  intros MAXB n P k (H1B & HB) HP Hn HF Hk H1. cbv zeta. remember (length (degrees P)) as m eqn:EM. set (e := single m k).
  pose proof (isv_self (T := R) P HP) as IP.
  assert (Le : length e = m) by apply length_single. assert (Lt : Forall (fun p => p < MAXB) e) by (apply single_lt; auto).
  assert (LeP : Forall2 le e (degrees P)) by (apply single_le; auto).
  assert (DD : directions_of e [k]) by (apply single_dirs; auto). clearbody e.
  destruct (power_isv MAXB P _ _ n HB IP HF) as (pn & E1 & I1).
  destruct (power_isv MAXB P _ _ (n - 1) HB IP) as (pm & E2 & I2).
  { eapply Forall_impl; [|exact HF]. intros p Hp. cbv beta in *. nia. }
  destruct (deriv_isv MAXB P _ _ e HB IP) as (dp & f & E3 & I3 & X3); auto; [congruence|].
  assert (ED : map2 Nat.add (map (Nat.mul (n - 1)) (degrees P)) (map2 Nat.sub (degrees P) e) = map2 Nat.sub (map (Nat.mul n) (degrees P)) e).
  { rewrite map2_add_comm. rewrite sub_add_l; [|now rewrite map_length|congruence|auto]. f_equal.
    rewrite <- (map_mul_1 MAXB HB (degrees P)) at 1. rewrite (map2_add_mul MAXB HB). f_equal. f_equal. lia. }
  destruct (mul_isv smul MAXB pm dp _ _ _ _ HB I2 I3) as (u & E4 & I4).
  { rewrite length_map2 by congruence. now rewrite map_length. }
  { rewrite ED. eapply Forall_le_lt; [apply sub_le; rewrite map_length; congruence|]. rewrite Forall_map. exact HF. }
  destruct (scale_isv (INR n) u _ _ I4) as (r & E5 & I5). rewrite ED in I5.
  exists pn, pm, dp, u, r. do 5 (split; auto).
  eapply (deriv_is MAXB pn r _ _ _ _ _ _ separated_scalar HB I1); try eassumption; [rewrite map_length; congruence| |reflexivity|].
  - eapply le_trans2; [exact LeP|]. apply Forall2_nth_le; [now rewrite map_length|]. intros j Hj.
    rewrite (nth_indep (map (Nat.mul n) (degrees P)) 0 (n * 0)) by (rewrite map_length; auto). rewrite (map_nth (Nat.mul n)). nia.
  - intros phi (HA & HC). rewrite map_length, <- EM. apply (mixed_one _ m k); auto; [apply open_length|]. rewrite <- EM in X3.
    pose proof (proj1 (mixed_one _ m k _ _ (open_length m) Hk) (X3 (fun y => y) [k] (conj (fun _ _ => eq_refl) (fun _ _ => eq_refl)) DD)) as PP.
    pose proof (partial_spow _ k _ _ n (fun xs (H : length xs = m) => eq_ind_r (fun m => k < m) Hk H) PP) as A. clear EM.
    assert (Hphi : forall y : R, phi y = (phi 1 * y)%R).
    { intros y. rewrite <- (Rmult_1_r y) at 1. change (y * 1)%R with (vscale (VOps := VOps_scalar R) y 1%R). rewrite HC. ring. }
    intros xs HX. pose proof (dlim_scal (phi 1%R) _ _ _ (A xs HX)) as B. eapply dlim_ext; [| |exact B]; cbv beta.
    + intros y. symmetry; apply Hphi.
    + symmetry; apply Hphi.
Qed.

(** Derivative of the tensor-product sum along a path. *)
Lemma dlim_path : forall degs ks (gs : list (R -> R)) (ls : list R) t (G : list nat -> R),
  length ks = length degs -> length gs = length degs -> length ls = length degs ->
  (forall j, j < length degs -> derivable_pt_lim (nth j gs (fun y => y)) t (nth j ls 0%R)) ->
  derivable_pt_lim (fun y => dmbez ks degs (map (fun g => g y) gs) G) t
    (vsum (length degs) (fun j => (nth j ls 0 * dmbez (upd_list ks j (S (nth j ks 0%nat))) degs (map (fun g => g t) gs) G)%R)).
Proof.
  induction degs as [|p degs IH]; intros [|a ks] [|g gs] [|l ls] t G H1 H2 H3 HD; try discriminate.
  - cbn [dmbez vsum]. apply dlim_const.
  - cbn [map dmbez length]. rewrite vsum_first. cbn [nth upd_list dmbez].
    eapply dlim_ext; [reflexivity| |apply dlim_vsum; intros i Hi;
      apply (dlim_mult (fun y => dbern a p i (g y)) (fun y => dmbez ks degs (map (fun g => g y) gs) (fun mi => G (i :: mi))) t
        (dbern (S a) p i (g t) * l)%R
        (vsum (length degs) (fun j => (nth j ls 0 * dmbez (upd_list ks j (S (nth j ks 0%nat))) degs (map (fun g => g t) gs) (fun mi => G (i :: mi)))%R)))].
    + change (vadd (VOps := VOps_scalar R) ?a ?b) with (a + b)%R.
      rewrite (vsum_add (F := SField_R) (M := VMod_scalar)).
      match goal with |- vadd ?a ?b = (?c + ?d)%R => change (vadd a b) with (a + b)%R end. f_equal.
      * change (l * ?x)%R with (vscale (VOps := VOps_scalar R) l x). rewrite <- (vsum_scale (F := SField_R) (M := VMod_scalar)).
        apply vsum_ext. intros i Hi. simpl. ring.
      * transitivity (vsum (length degs) (fun j => vsum (S p) (fun i => (dbern a p i (g t) * (nth j ls 0 *
          dmbez (upd_list ks j (S (nth j ks 0%nat))) degs (map (fun g => g t) gs) (fun mi => G (i :: mi))))%R))).
        -- rewrite <- (vsum_swap (F := SField_R) (M := VMod_scalar)). apply vsum_ext. intros i Hi.
           rewrite (vsum_scale (F := SField_R) (M := VMod_scalar) (length degs) (dbern a p i (g t))
             (fun j => (nth j ls 0 * dmbez (upd_list ks j (S (nth j ks 0%nat))) degs (map (fun g => g t) gs) (fun mi => G (i :: mi)))%R)).
           reflexivity.
        -- apply vsum_ext. intros j Hj. cbn [nth upd_list dmbez].
           change (nth j ls 0 * ?x)%R with (vscale (VOps := VOps_scalar R) (nth j ls 0%R) x).
           rewrite <- (vsum_scale (F := SField_R) (M := VMod_scalar)). apply vsum_ext. intros i Hi. simpl. ring.
    + apply (derivable_pt_lim_comp g (dbern a p i) t l); [apply (HD 0); simpl; lia|apply dlim_dbern].
    + apply IH; simpl in *; try lia. intros j Hj. apply (HD (S j)). lia.
Qed.

Lemma sum_isv {V} {ov : VOps R V} {M : VMod R V} (ts : list (spline V)) fs D :
  Forall2 (fun t f => isv t D f) ts fs -> ts <> [] -> (Z.of_nat (n_coeffs D) < 2 ^ 31)%Z ->
  exists r, sum_of (T := R) ts r /\ isv r D (fun xs => fold_right (fun f acc => vadd (f xs) acc) v0 fs).
Proof.
  intros H HN HS. induction H as [|t f ts fs Ht HF IH]; [congruence|]. destruct HF as [|t' f' ts fs Ht' HF].
  - exists t. split; [constructor|]. eapply isv_ext; [exact Ht|reflexivity|]. intros. simpl. rewrite vm_comm. symmetry. apply vm_0.
  - destruct IH as (r & Er & Hr); [congruence|].
    destruct (add_isv t r _ _ _ _ Ht Hr eq_refl) as (q & Eq & Hq); [now rewrite map2_max_same|]. rewrite map2_max_same in Hq.
    exists q. split; [econstructor; eauto|]. exact Hq.
Qed.

Lemma phi_fold {V} {ov : VOps R V} {M : VMod R V} (phi : V -> R) (HP : linear_form phi) (h : nat -> V) n : forall a,
  phi (fold_right (fun j acc => vadd (h j) acc) v0 (seq a n)) = vsum n (fun j => phi (h (a + j))).
Proof.
  destruct HP as (HA & HC). assert (H0 : phi v0 = 0%R) by (pose proof (HA v0 v0) as A; rewrite vm_0 in A; lra).
  induction n; intros a; [exact H0|]. rewrite (vsum_first (F := SField_R) (M := VMod_scalar)). cbn [seq fold_right].
  rewrite HA, IHn, Nat.add_0_r. change (vadd (VOps := VOps_scalar R) ?a ?b) with (a + b)%R. f_equal.
  apply vsum_ext. intros i Hi. do 2 f_equal. lia.
Qed.

Lemma nth_le_sum D k : nth k D 0 <= list_sum D.
Proof. revert k. induction D; intros [|k]; simpl; try lia. specialize (IHD k). lia. Qed.

Lemma list_sum_sub D k : k < length D -> 1 <= nth k D 0 -> list_sum (map2 Nat.sub D (single (length D) k)) = list_sum D - 1.
Proof.
  revert k. induction D as [|p D IH]; intros k Hk H1; [simpl in Hk; lia|]. destruct k as [|k].
  - unfold single. cbn [length repeat upd_list map2 list_sum fold_right nth] in *.
    assert (E : map2 Nat.sub D (repeat 0 (length D)) = D) by (clear; induction D; simpl; f_equal; auto; lia).
    rewrite E. fold (list_sum D). lia.
  - unfold single in *. cbn [length repeat upd_list map2 list_sum fold_right nth] in *. fold (list_sum D).
    fold (list_sum (map2 Nat.sub D (upd_list (repeat 0 (length D)) k 1))). rewrite IH by lia.
    pose proof (nth_le_sum D k). lia.
Qed.

Lemma chain_degrees n E e : length e = length E -> 1 <= n -> Forall2 le e E ->
  map2 Nat.add (map2 Nat.sub E e) (map (Nat.mul (n - 1)) E) = map2 Nat.sub (map (Nat.mul n) E) e.
Proof.
  intros HL Hn HF. rewrite sub_add_l; [|now rewrite map_length|auto|auto]. f_equal. clear -Hn.
  induction E as [|p E IH]; auto. cbn [map map2]. f_equal; [|exact IH]. nia.
Qed.

Lemma deriv_value {V} {ov : VOps R V} {M : VMod R V} MAXB (s : spline V) orders : MAXB <= 68 -> wf s -> length orders = length (degrees s) ->
  Forall2 le orders (degrees s) -> Forall (fun k => k < MAXB) orders ->
  exists r, DerivativeWRT MAXB s orders = Ok r /\ isv r (map2 Nat.sub (degrees s) orders)
    (fun xs => dmbez orders (degrees s) xs (fun mi => nth (position (degrees s) mi) (control_points s) v0)).
Proof.
  intros HB Hs HL Hle HM. destruct (DerivativeWRT_ok MAXB HB s orders Hs HL Hle HM) as (r & E & Hr & Hd & HV).
  exists r. split; auto. split; [exact Hr|]. split; [exact Hd|]. intros xs HX. rewrite length_map2 in HX by (symmetry; auto). auto.
Qed.

Lemma plist_coords d (p : point R d) : plist d p = map (fun j => coord d p j) (seq 0 d).
Proof.
  apply (list_ext 0%R); [rewrite plist_length, map_length, seq_length; reflexivity|]. intros i Hi. rewrite plist_length in Hi.
  rewrite nth_map_seq by auto. reflexivity.
Qed.

Lemma exists_list {A} (P : nat -> A -> Prop) n : (forall j, j < n -> exists a, P j a) ->
  exists l, length l = n /\ forall j, j < n -> exists a, nth_error l j = Some a /\ P j a.
Proof.
  induction n as [|n IH]; intros H; [exists []; split; auto; intros; lia|].
  destruct IH as (l & HL & HN); [intros; apply H; lia|]. destruct (H n ltac:(lia)) as (a & Ha).
  exists (l ++ [a]). split; [rewrite app_length; simpl; lia|]. intros j Hj. destruct (Nat.eq_dec j n) as [->|].
  - exists a. split; auto. rewrite nth_error_app2 by lia. rewrite HL, Nat.sub_diag. reflexivity.
  - destruct (HN j ltac:(lia)) as (b & E & Hb). exists b. split; auto. rewrite nth_error_app1 by lia. auto.
Qed.

Lemma Forall2_nth_error {A B} (P : A -> B -> Prop) l l' : length l = length l' /\
  (forall j a b, nth_error l j = Some a -> nth_error l' j = Some b -> P a b) -> Forall2 P l l'.
Proof.
  revert l'. induction l as [|a l IH]; intros [|b l'] (HL & H); try discriminate; constructor.
  - apply (H 0); reflexivity.
  - apply IH. split; [simpl in HL; lia|]. intros j. apply (H (S j)).
Qed.
Lemma fold_right_map {A B C} (f : B -> C -> C) (g : A -> B) c l : fold_right f c (map g l) = fold_right (fun x acc => f (g x) acc) c l.
Proof. induction l; simpl; congruence. Qed.

Lemma c75_chain : forall (V : Type) (ov : VOps R V) (M : VMod R V) (MAXB : nat)
  (outer : spline V) (inner : spline (point R (length (degrees outer)))) (k : nat),
  separated (V := V) -> MAXB <= 68 -> wf outer -> wf inner ->
  (forall p j, In p (control_points inner) -> j < length (degrees outer) -> in_unit (coord _ p j)) ->
  Forall (fun p => 1 <= p) (degrees outer) -> k < length (degrees inner) -> 1 <= nth k (degrees inner) 0 ->
  Forall (fun p => list_sum (degrees outer) * p < MAXB) (degrees inner) ->
  Forall (fun p => p < MAXB) (degrees outer) ->
  (Z.of_nat (n_coeffs (map (Nat.mul (list_sum (degrees outer))) (degrees inner))) < 2 ^ 31)%Z ->
  exists r dr ts, let n := length (degrees outer) in let e := single (length (degrees inner)) k in
    Compose MAXB outer inner = Ok r /\ DerivativeWRT MAXB r e = Ok dr /\ length ts = n /\
    (forall j, j < n -> exists t, nth_error ts j = Some t /\ exists dj cj xj dxj,
       DerivativeWRT MAXB outer (single n j) = Ok dj /\ Compose MAXB dj inner = Ok cj /\
       ExtractDimension inner j = Ok xj /\ DerivativeWRT MAXB xj e = Ok dxj /\ spline_mul_sv MAXB dxj cj = Ok t) /\
    sum_of (T := R) ts dr.
Proof.
  intros V ov M MAXB outer inner k HSep HB Ho Hi HC H1o Hk H1 HF HM HZ. cbv zeta.
  remember (length (degrees outer)) as n eqn:EN. remember (length (degrees inner)) as m eqn:EM.
  set (e := single m k). set (D := degrees outer) in *. set (E := degrees inner) in *.
  assert (Hn : 0 < n) by (destruct Ho as (A & _); rewrite EN; destruct (degrees outer); simpl; [congruence|lia]).
  assert (H1j : forall j, j < n -> 1 <= nth j D 0).
  { intros j Hj. rewrite Forall_forall in H1o. apply H1o. apply nth_In. lia. }
  assert (Hsum : 1 <= list_sum D) by (pose proof (H1j 0 Hn); pose proof (nth_le_sum D 0); lia).
  assert (H1B : 1 < MAXB).
  { assert (A : In (nth k E 0) E) by (apply nth_In; lia). rewrite Forall_forall in HF. specialize (HF _ A). nia. }
  pose proof (isv_self (T := R) outer Ho) as Io. pose proof (isv_self (T := R) inner Hi) as Ii. fold D in Io. fold E in Ii.
  assert (Le : length e = m) by apply length_single. assert (Lt : Forall (fun p => p < MAXB) e) by (apply single_lt; auto).
  assert (LeE : Forall2 le e E) by (apply single_le; auto).
  assert (DD : directions_of e [k]) by (apply single_dirs; auto).
  destruct (compose_isv MAXB n outer inner _ _ _ _ HB Io Ii) as (r & Er & Ir); auto.
  set (fj := fun j xs => dmbez (single n j) D xs (fun mi => nth (position D mi) (control_points outer) v0)).
  set (gj := fun j xs => dmbez e E xs (fun mi => coord n (nth (position E mi) (control_points inner) v0) j)).
  assert (HT : forall j, j < n -> exists t,
    (exists dj cj xj dxj, DerivativeWRT MAXB outer (single n j) = Ok dj /\ Compose MAXB dj inner = Ok cj /\
       ExtractDimension inner j = Ok xj /\ DerivativeWRT MAXB xj e = Ok dxj /\ spline_mul_sv MAXB dxj cj = Ok t) /\
    isv t (map2 Nat.sub (map (Nat.mul (list_sum D)) E) e) (fun xs => vscale (gj j xs) (fj j (plist n (value_at inner xs))))).
  { intros j Hj.
    destruct (deriv_value MAXB outer (single n j) HB Ho) as (dj & E1 & I1).
    { rewrite length_single. auto. } { apply single_le; auto. } { apply single_lt; auto. }
    fold D in I1. change (isv dj (map2 Nat.sub D (single n j)) (fj j)) in I1.
    assert (SD : list_sum (map2 Nat.sub D (single n j)) = list_sum D - 1).
    { rewrite EN. apply list_sum_sub; [lia|]. apply H1j. auto. }
    destruct (compose_isv MAXB n dj inner _ _ _ _ HB I1 Ii) as (cj & E2 & I2).
    { rewrite length_map2; rewrite ?length_single; auto. } { exact HC. }
    { rewrite SD. eapply Forall_impl; [|exact HF]. intros p Hp. cbv beta in *. nia. }
    { eapply Forall_le_lt; [|exact HM]. apply sub_le. rewrite length_single. auto. }
    rewrite SD in I2.
    destruct (ExtractDimension_ok inner j Hi Hj) as (xj & E3 & Hx & Dx & Cx).
    destruct (deriv_value MAXB xj e HB Hx) as (dxj & E4 & I4).
    { rewrite Dx. fold E. congruence. } { rewrite Dx. exact LeE. } { exact Lt. }
    rewrite Dx in I4. fold E in I4.
    assert (I4' : isv dxj (map2 Nat.sub E e) (gj j)).
    { eapply isv_ext; [exact I4|reflexivity|]. intros xs HX. rewrite length_map2 in HX by congruence. unfold gj. apply dmbez_ext.
      - congruence. - auto. - intros mi Hmi. rewrite Cx. destruct Hi as (_ & _ & _ & HL).
        rewrite (nth_indep _ v0 (coord n v0 j)) by (rewrite map_length, HL; apply position_lt; exact Hmi).
        apply (map_nth (fun p => coord n p j)). }
    destruct (mul_isv (fun c p => vscale c p) MAXB dxj cj _ _ _ _ HB I4' I2) as (t & E5 & I5).
    { rewrite map_length, length_map2; congruence. }
    { rewrite chain_degrees by (auto; congruence). eapply Forall_le_lt; [apply sub_le; rewrite map_length; congruence|].
      rewrite Forall_map. exact HF. }
    rewrite chain_degrees in I5 by (auto; congruence).
    exists t. split; [exists dj, cj, xj, dxj; auto|exact I5]. }
  destruct (exists_list _ n HT) as (ts & HL & HTs).
  destruct (sum_isv ts (map (fun j xs => vscale (gj j xs) (fj j (plist n (value_at inner xs)))) (seq 0 n))
    (map2 Nat.sub (map (Nat.mul (list_sum D)) E) e)) as (dr & Edr & Idr).
  { clear -HL HTs. apply Forall2_nth_error. rewrite map_length, seq_length. split; auto.
    intros j t f Et Ef. rewrite nth_error_map in Ef. destruct (nth_error (seq 0 n) j) as [i|] eqn:Ei; [|discriminate].
    assert (Hj : j < n) by (rewrite <- HL; apply nth_error_Some; congruence).
    apply (nth_error_nth _ _ 0) in Ei. rewrite seq_nth in Ei by auto. simpl in Ei. subst i. injection Ef as <-.
    destruct (HTs j Hj) as (t' & Et' & _ & It). replace t with t' by congruence. exact It. }
  { destruct ts; simpl in HL; [lia|congruence]. }
  { eapply size_le; [|exact HZ]. apply sub_le. rewrite map_length. congruence. }
  exists r, dr, ts. split; [exact Er|]. split; [|split; [exact HL|split; [|exact Edr]]].
  2:{ intros j Hj. destruct (HTs j Hj) as (t & Et & Ht & _). exists t. auto. }
  eapply (deriv_is MAXB r dr _ _ _ _ _ _ HSep HB Ir); try eassumption; [rewrite map_length; congruence| |reflexivity|].
  { eapply le_trans2; [exact LeE|]. apply Forall2_nth_le; [now rewrite map_length|]. intros j Hj.
    rewrite (nth_indep (map (Nat.mul (list_sum D)) E) 0 (list_sum D * 0)) by (rewrite map_length; auto).
    rewrite (map_nth (Nat.mul (list_sum D))). nia. }
  intros phi HP. rewrite map_length, <- EM. apply (mixed_one _ m k); [apply open_length|auto|].
  set (G := fun mi => phi (nth (position D mi) (control_points outer) v0)).
  assert (Pg : forall j, j < n -> partial (fun xs => length xs = m) k (fun xs => coord n (value_at inner xs) j) (gj j)).
  { intros j Hj. apply (mixed_one _ m k); [apply open_length|auto|].
    pose proof (mixed_spline _ inner e [k] (fun p => coord n p j) Hi ltac:(fold E; congruence) DD (linear_coord n j)) as A.
    fold E in A. rewrite <- EM in A. eapply mixed_ext; [| |exact A]; intros xs; [reflexivity|]. intros HX. unfold gj.
    apply (linear_dmbez (fun p => coord n p j)); [apply VMod_point|apply linear_coord]. }
  intros xs HX. cbv beta in HX.
  set (gs := map (fun j => fun y => coord n (value_at inner (upd_list xs k y)) j) (seq 0 n)).
  set (ls := map (fun j => gj j xs) (seq 0 n)).
  pose proof (dlim_path D (repeat 0 n) gs ls (nth k xs 0%R) G) as A.
  assert (LD : length D = n) by auto.
  rewrite LD in A.
  assert (A' := A ltac:(apply repeat_length) ltac:(unfold gs; now rewrite map_length, seq_length) ltac:(unfold ls; now rewrite map_length, seq_length)).
  clear A. rename A' into A.
  assert (Eg : forall y, map (fun g => g y) gs = plist n (value_at inner (upd_list xs k y))).
  { intros y. rewrite plist_coords. unfold gs. now rewrite map_map. }
  eapply dlim_ext; [| |apply A].
  - intros y. cbv beta. rewrite Eg.
    match goal with |- _ = phi (value_at outer ?x) => change (value_at outer x) with (bezier D x (fun i => nth i (control_points outer) v0)) end.
    rewrite <- (dmbez_0 (F := SField_R) D) by (rewrite plist_length; auto).
    rewrite LD. symmetry. apply (linear_dmbez phi); auto.
  - rewrite Eg, (upd_list_same 0%R) by lia. rewrite fold_right_map.
    rewrite (phi_fold phi HP (fun j => vscale (gj j xs) (fj j (plist n (value_at inner xs)))) n 0).
    apply vsum_ext. intros j Hj. destruct HP as (HA & HPC). rewrite HPC. simpl Nat.add. unfold ls. rewrite nth_map_seq by auto.
    f_equal. rewrite nth_repeat. fold (single n j). unfold fj. symmetry. apply (linear_dmbez phi); auto. split; auto.
  - intros j Hj. unfold gs, ls. rewrite !nth_map_seq by auto. apply (Pg j Hj xs HX).
Qed.
