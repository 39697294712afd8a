(** Splines with non-negative coefficients, and convex combinations of control points. *)
From Coq Require Import Arith Lia List ZArith NArith Bool Ring Field.
From Verif Require Import Prelude Scalar Spec SpecSpline Sums Order Coord ModelBasis ModelSpline ModelPoint
  ModelRational ProofIndex ProofBasis ProofEval ProofElevate ProofUnique ClaimsA ProofArith ClaimsB ProofCube ClaimsC
  ProofMul ProofSplit ClaimsD ProofCompose ClaimsE ProofLaws ClaimsV SpecReal SpecLaws ProofLawsReal SpecHull.
Import ListNotations.
Local Open Scope nat_scope.

Section Hull.
Context {T : Type} {o : SOps T} {F : SField T} {O : SOrder T}.
Add Field Tfield : (@sf_th T o F).

(** A scalar-valued spline with the given values and non-negative control points. *)
Definition npos (D : list nat) (f : list T -> T) : Prop :=
  exists s : spline T, isv s D f /\ Forall (fun c => sle s0 c) (control_points s).

Lemma npos_ext D E f g : npos D f -> D = E -> (forall xs, length xs = length D -> f xs = g xs) -> npos E g.
Proof. intros (s & I & H) HE HF. exists s. split; auto. eapply isv_ext; eauto. Qed.

Lemma sbinom_pos n k : k <= n -> slt (s0 : T) (sofN (binom n k)).
Proof.
  intros H. pose proof (sofN_nonneg (binom n k)) as A. rewrite sle_iff in A. destruct A as [A|A]; auto.
  exfalso. apply (sbinom_neq0 (T := T) n k H). auto.
Qed.

Lemma prodsum_nonneg ms : forall ns ks (f g : nat -> T), length ns = length ms ->
  valid_index (map2 Nat.add ms ns) ks ->
  (forall i, i < n_coeffs ms -> sle s0 (f i)) -> (forall i, i < n_coeffs ns -> sle s0 (g i)) ->
  sle s0 (prodsum (T := T) smul ms ns ks f g).
Proof.
  induction ms as [|m ms IH]; intros [|n ns] [|k ks] f g HL HK Hf Hg; try discriminate; try (inversion HK; fail).
  - cbn [prodsum]. apply sle_mul_0; [apply Hf|apply Hg]; unfold n_coeffs, prod; simpl; lia.
  - cbn [map2] in HK. inversion HK as [|? ? ? ? Hk HK']; subst. cbn [prodsum].
    apply ssum_nonneg. intros t Ht. apply sle_mul_0.
    + unfold mul_coef. apply sle_div; [apply sofN_nonneg|apply sbinom_pos; lia].
    + apply IH; auto.
      * intros i Hi. apply Hf. rewrite n_coeffs_cons. nia.
      * intros i Hi. apply Hg. rewrite n_coeffs_cons. nia.
Qed.

Lemma npos_mul D E f g : D <> [] -> length E = length D -> npos D f -> npos E g ->
  npos (map2 Nat.add D E) (fun xs => smul (f xs) (g xs)).
Proof.
  intros HD HL (P & (HP & <- & VP) & NP) (Q & (HQ & <- & VQ) & NQ).
  set (D := map2 Nat.add (degrees P) (degrees Q)).
  set (c := map (fun i => prodsum (T := T) smul (degrees P) (degrees Q) (index_of D i)
    (fun i => nth i (control_points P) s0) (fun i => nth i (control_points Q) s0)) (seq 0 (n_coeffs D))).
  assert (Lc : length c = n_coeffs D) by (unfold c; now rewrite map_length, seq_length).
  assert (HDn : D <> []) by (apply map2_add_neq; auto).
  exists (mk D c). split; [split; [apply wf_mk; auto|split; [reflexivity|]]|].
  - intros xs HX. unfold D in HX. rewrite length_map2_add in HX by auto. rewrite <- VP, <- VQ by congruence.
    unfold value_at. cbn [mk degrees control_points].
    rewrite <- (bezier_prodsum (T := T) smul (degrees P) (degrees Q) xs) by auto. fold D. apply bezier_ext. intros i Hi.
    unfold c. now rewrite nth_map_seq by auto.
  - cbn [mk control_points]. apply Forall_forall. intros y Hy. unfold c in Hy. apply in_map_iff in Hy.
    destruct Hy as (i & <- & Hi). apply in_seq in Hi. destruct HP as (_ & _ & _ & LP), HQ as (_ & _ & _ & LQ).
    rewrite Forall_forall in NP, NQ. apply prodsum_nonneg; auto.
    + apply index_of_valid.
    + intros j Hj. apply NP. apply nth_In. lia.
    + intros j Hj. apply NQ. apply nth_In. lia.
Qed.

Lemma npos_scale D c f : npos D f -> sle s0 c -> npos D (fun xs => smul c (f xs)).
Proof.
  intros (s & (Hs & <- & HV) & HN) Hc.
  exists (with_cps s (map (fun x => smul c x) (control_points s))). split.
  - split; [apply wf_upd; auto; apply map_length|split; [reflexivity|]]. intros xs HX. rewrite <- HV by auto. unfold value_at.
    cbn [with_cps degrees control_points].
    rewrite (bezier_ext (degrees s) xs _ (fun i => vscale c (nth i (control_points s) s0))).
    + exact (bezier_scale (V := T) (degrees s) xs c (fun i => nth i (control_points s) s0)).
    + intros i Hi. destruct Hs as (_ & _ & _ & HL).
      rewrite (nth_indep _ v0 (smul c s0)) by (rewrite map_length; lia). now rewrite (map_nth (fun x => smul c x)).
  - cbn [with_cps control_points]. rewrite Forall_map. eapply Forall_impl; [|exact HN]. intros x Hx. apply sle_mul_0; auto.
Qed.

Lemma npos_const n c : 0 < n -> sle s0 c -> npos (repeat 0 n) (fun _ => c).
Proof.
  intros Hn Hc. assert (HN : repeat 0 n <> []) by (destruct n; [lia|discriminate]).
  exists (mk (repeat 0 n) [c]). split; [|cbn [mk control_points]; auto]. split.
  - apply wf_mk; [exact HN|]. now rewrite (n_coeffs_0 68 (le_n _)).
  - split; [reflexivity|]. intros xs HX. rewrite repeat_length in HX. unfold value_at. cbn [mk degrees control_points].
    now rewrite (bezier_deg0 68 (le_n _)) by auto.
Qed.

Lemma map_mul_0 D : map (Nat.mul 0) D = repeat 0 (length D).
Proof. induction D; simpl; f_equal; auto. Qed.

Lemma npos_pow D f n : D <> [] -> npos D f -> npos (map (Nat.mul n) D) (fun xs => spow (f xs) n).
Proof.
  intros HD H. induction n as [|n IH].
  - rewrite map_mul_0. apply (npos_const (length D) s1); [destruct D; [congruence|simpl; lia]|apply sle_0_1].
  - eapply npos_ext; [apply (npos_mul D (map (Nat.mul n) D)); eauto; apply map_length| |intros; reflexivity].
    rewrite <- (map_mul_1 68 (le_n _) D) at 1. rewrite (map2_add_mul 68 (le_n _)). reflexivity.
Qed.

(** Degrees of the product of powers [f_k^p_k] with [f_k] of degrees [E_k]. *)
Fixpoint wdeg (n : nat) (degs : list nat) (Es : list (list nat)) : list nat :=
  match degs, Es with
  | p :: degs, E :: Es => map2 Nat.add (map (Nat.mul p) E) (wdeg n degs Es)
  | _, _ => repeat 0 n
  end.

Lemma length_wdeg n degs : forall Es, Forall (fun E => length E = n) Es -> length (wdeg n degs Es) = n.
Proof.
  induction degs as [|p degs IH]; intros [|E Es] H; try apply repeat_length. cbn [wdeg].
  inversion H; subst. rewrite length_map2_add; rewrite map_length; auto.
Qed.

Lemma wdeg_same degs E : wdeg (length E) degs (repeat E (length degs)) = map (Nat.mul (list_sum degs)) E.
Proof.
  induction degs as [|p degs IH]; cbn [length repeat wdeg list_sum fold_right]; [now rewrite map_mul_0|].
  rewrite IH, (map2_add_mul 68 (le_n _)). reflexivity.
Qed.

Lemma wdeg_single_aux n degs : forall a j, a + length degs <= n -> j < n ->
  nth j (wdeg n degs (map (single n) (seq a (length degs)))) 0 = if a <=? j then nth (j - a) degs 0 else 0.
Proof.
  induction degs as [|p degs IH]; intros a j Ha Hj; cbn [length seq map wdeg].
  - rewrite nth_repeat. destruct (a <=? j), (j - a); reflexivity.
  - simpl in Ha. assert (LW : length (wdeg n degs (map (single n) (seq (S a) (length degs)))) = n).
    { apply length_wdeg. rewrite Forall_map. apply Forall_forall. intros x _. apply length_single. }
    rewrite (nth_map2_add 68 (le_n _)) by (rewrite map_length, length_single; auto).
    rewrite IH by lia. rewrite (nth_indep _ 0 (p * 0)) by (rewrite map_length, length_single; auto).
    rewrite map_nth, nth_single by lia.
    destruct (Nat.eqb_spec j a) as [->|NE].
    + rewrite Nat.leb_refl, Nat.sub_diag. destruct (Nat.leb_spec (S a) a); [lia|]. simpl. lia.
    + destruct (Nat.leb_spec (S a) j), (Nat.leb_spec a j); try lia.
      replace (j - a) with (S (j - S a)) by lia. simpl. lia.
Qed.

Lemma wdeg_single degs : wdeg (length degs) degs (map (single (length degs)) (seq 0 (length degs))) = degs.
Proof.
  set (n := length degs). apply (nth_ext _ _ 0 0).
  - rewrite length_wdeg; auto. rewrite Forall_map. apply Forall_forall. intros x _. apply length_single.
  - intros j Hj. rewrite length_wdeg in Hj.
    + unfold n. rewrite wdeg_single_aux by (unfold n in Hj; lia). simpl. now rewrite Nat.sub_0_r.
    + rewrite Forall_map. apply Forall_forall. intros x _. apply length_single.
Qed.

(** The basis functions, composed with functions given by splines in the unit interval. *)
Lemma npos_basis n : 0 < n -> forall degs Es (fs : list (list T -> T)) i,
  length Es = length degs -> length fs = length degs -> Forall (fun E => length E = n) Es -> i < n_coeffs degs ->
  (forall k, k < length degs -> npos (nth k Es []) (nth k fs (fun _ => s0)) /\
     npos (nth k Es []) (fun xs => ssub s1 (nth k fs (fun _ => s0) xs))) ->
  npos (wdeg n degs Es) (fun xs => basis_at degs (map (fun f => f xs) fs) i).
Proof.
  intros Hn. induction degs as [|p degs IH]; intros [|E Es] [|f fs] i HLE HL HE Hi HF; try discriminate.
  - cbn [wdeg map basis_at]. apply npos_const; [auto|apply sle_0_1].
  - destruct (HF 0 ltac:(simpl; lia)) as (Hf & Hg). cbn [nth] in Hf, Hg. rewrite n_coeffs_cons in Hi.
    inversion HE as [|? ? HE0 HE']; subst.
    assert (HEn : E <> []) by (destruct E; simpl in *; [lia|discriminate]).
    pose proof (Nat.mod_upper_bound i (S p) ltac:(lia)) as Hm.
    assert (Hd : i / S p < n_coeffs degs) by (apply Nat.div_lt_upper_bound; lia).
    assert (IH' := IH Es fs (i / S p) ltac:(simpl in HLE; lia) ltac:(simpl in HL; lia) HE' Hd
      (fun k Hk => HF (S k) ltac:(simpl; lia))). clear IH. set (j := i mod S p) in *.
    cbn [map basis_at wdeg]. fold j.
    eapply npos_ext; [apply (npos_mul (map (Nat.mul p) E) (wdeg (length E) degs Es)
      (fun xs => bernstein p j (f xs)) (fun xs => basis_at degs (map (fun f => f xs) fs) (i / S p)))| |].
    + destruct E; [congruence|discriminate].
    + rewrite map_length. now apply length_wdeg.
    + eapply npos_ext; [apply (npos_scale _ (sofN (binom p j))); [|apply sofN_nonneg];
        apply (npos_mul (map (Nat.mul j) E) (map (Nat.mul (p - j)) E) (fun xs => spow (f xs) j) (fun xs => spow (ssub s1 (f xs)) (p - j)))| |].
      * destruct E; [congruence|discriminate].
      * now rewrite !map_length.
      * apply npos_pow; auto.
      * apply (npos_pow E (fun xs => ssub s1 (f xs))); auto.
      * rewrite (map2_add_mul 68 (le_n _)). f_equal. f_equal. lia.
      * intros xs HX. unfold bernstein. ring.
    + exact IH'.
    + reflexivity.
    + intros xs HX. reflexivity.
Qed.

(** Affine functions of one parameter. *)
Lemma bezier_single n : forall k (xs : list T) (f : nat -> T), k < n -> length xs = n ->
  bezier (single n k) xs f = sadd (smul (ssub s1 (nth k xs s0)) (f 0)) (smul (nth k xs s0) (f 1)).
Proof.
  induction n as [|n IH]; intros k [|x xs] f Hk HX; try discriminate; try lia. injection HX as HX. destruct k as [|k].
  - change (single (S n) 0) with (1 :: repeat 0 n). rewrite bezier_cons. cbn [vsum nth].
    rewrite !(bezier_deg0 68 (le_n _)) by auto. unfold bernstein. simpl. rewrite ?sofN_1. ring.
  - change (single (S n) (S k)) with (0 :: single n k). rewrite bezier_cons. cbn [vsum nth].
    rewrite IH by (auto; lia). unfold bernstein. simpl. rewrite ?sofN_1. ring.
Qed.

Lemma n_coeffs_single n k : k < n -> n_coeffs (single n k) = 2.
Proof.
  revert k. induction n as [|n IH]; intros [|k] Hk; try lia.
  - change (single (S n) 0) with (1 :: repeat 0 n). rewrite n_coeffs_cons, (n_coeffs_0 68 (le_n _)). reflexivity.
  - change (single (S n) (S k)) with (0 :: single n k). rewrite n_coeffs_cons, IH by lia. reflexivity.
Qed.

Lemma npos_line n k a b : k < n -> sle s0 a -> sle s0 b ->
  npos (single n k) (fun xs => sadd a (smul (ssub b a) (nth k xs s0))).
Proof.
  intros Hk Ha Hb. exists (mk (single n k) [a; b]). split; [|cbn [mk control_points]; auto]. split.
  - apply wf_mk; [|now rewrite n_coeffs_single].
    intros E. apply (f_equal (@length nat)) in E. rewrite length_single in E. simpl in E. lia.
  - split; [reflexivity|]. intros xs HX. rewrite length_single in HX. unfold value_at. cbn [mk degrees control_points].
    rewrite bezier_single by auto. cbn [nth]. ring.
Qed.

Lemma npos_affine n k a b : k < n -> in_unit a -> in_unit b ->
  npos (single n k) (fun xs => sadd a (smul (ssub b a) (nth k xs s0))) /\
  npos (single n k) (fun xs => ssub s1 (sadd a (smul (ssub b a) (nth k xs s0)))).
Proof.
  intros Hk Ha Hb. split; [apply npos_line; auto; apply Ha || apply Hb|].
  eapply npos_ext; [apply (npos_line n k (ssub s1 a) (ssub s1 b))| |]; auto.
  - apply (proj1 (sle_sub a s1)). apply Ha.
  - apply (proj1 (sle_sub b s1)). apply Hb.
  - intros xs HX. cbv beta. ring.
Qed.

(** Splines with the same degrees and the same values have the same coefficients. *)
Lemma coef_unique {V} {ov : VOps T V} {M : VMod T V} D (f g : nat -> V) : D <> [] ->
  (forall xs : list T, length xs = length D -> bezier D xs f = bezier D xs g) ->
  forall i, i < n_coeffs D -> f i = g i.
Proof.
  intros HD HE i Hi. set (S h := mk D (map h (seq 0 (n_coeffs D))) : spline V).
  assert (A : forall h, isv (S h) D (fun xs => bezier D xs h)).
  { intros h. split; [apply wf_mk; auto; now rewrite map_length, seq_length|]. split; [reflexivity|]. intros xs HX.
    unfold S, value_at. cbn [mk degrees control_points]. apply bezier_ext. intros j Hj. now rewrite nth_map_seq by auto. }
  assert (E : S f = S g) by (eapply isv_unique; [apply A|apply A|auto]).
  assert (E' : nth i (control_points (S f)) v0 = nth i (control_points (S g)) v0) by now rewrite E.
  unfold S in E'. cbn [mk control_points] in E'. now rewrite !nth_map_seq in E' by auto.
Qed.

Lemma npos_isv (s : spline T) D f : isv s D f -> npos D f -> Forall (fun c => sle s0 c) (control_points s).
Proof. intros H (t & H' & HN). replace s with t; auto. eapply isv_unique; eauto. Qed.

Lemma nonneg_isv (s : spline T) D f : isv s D f -> Forall (fun c => sle s0 c) (control_points s) -> npos D f.
Proof. intros. exists s. auto. Qed.

Lemma in_unit_flip (x : T) : in_unit x -> sle s0 (ssub s1 x).
Proof. intros (_ & H). now apply (proj1 (sle_sub x s1)). Qed.

Lemma npos_coord {d} (inner : spline (point T d)) k : wf inner -> k < d ->
  (forall p k, In p (control_points inner) -> k < d -> in_unit (coord _ p k)) ->
  npos (degrees inner) (fun xs => coord d (value_at inner xs) k) /\
  npos (degrees inner) (fun xs => ssub s1 (coord d (value_at inner xs) k)).
Proof.
  intros Hi Hk HC. set (D := degrees inner). pose proof (proj1 Hi) as HD. destruct Hi as (_ & _ & _ & HL).
  assert (A : forall h : point T d -> T, (forall p, In p (control_points inner) -> sle s0 (h p)) ->
    npos D (fun xs => bezier D xs (fun i => h (nth i (control_points inner) v0)))).
  { intros h Hh. exists (mk D (map h (control_points inner))). split.
    - split; [apply wf_mk; auto; now rewrite map_length|]. split; [reflexivity|]. intros xs HX. unfold value_at.
      cbn [mk degrees control_points]. apply bezier_ext. intros i Hx.
      rewrite (nth_indep _ v0 (h v0)) by (rewrite map_length; unfold D in Hx; lia). apply map_nth.
    - cbn [mk control_points]. rewrite Forall_map. apply Forall_forall. auto. }
  split.
  - eapply npos_ext; [apply (A (fun p => coord d p k))| reflexivity|].
    + intros p Hp. apply HC; auto.
    + intros xs HX. unfold value_at. now rewrite coord_bezier.
  - eapply npos_ext; [apply (A (fun p => ssub s1 (coord d p k)))| reflexivity|].
    + intros p Hp. apply in_unit_flip. auto.
    + intros xs HX. cbv beta. unfold value_at. rewrite coord_bezier. fold D.
      rewrite (bezier_ext D xs (fun i => ssub s1 (coord d (nth i (control_points inner) v0) k))
        (fun i => vadd s1 (vscale (sopp s1) (coord d (nth i (control_points inner) v0) k)))) by (intros; simpl; ring).
      rewrite (bezier_add (V := T)), (bezier_scale (V := T)), (bezier_const (V := T) D xs s1 HX). simpl. ring.
Qed.

(** Weights that are splines with non-negative coefficients and sum up to one: the coefficients form a
    matrix of convex combinations. *)
Lemma choose_coeffs D n (W : nat -> list T -> T) : (forall i, i < n -> npos D (W i)) ->
  exists A : nat -> nat -> T, (forall i j, i < n -> j < n_coeffs D -> sle s0 (A j i)) /\
    forall i xs, i < n -> length xs = length D -> W i xs = bezier D xs (fun j => A j i).
Proof.
  induction n as [|n IH]; intros H.
  - exists (fun _ _ => s0). split; intros; lia.
  - destruct IH as (A & HA & HV); [auto|]. destruct (H n ltac:(lia)) as (t & (Ht & Hd & Hv) & HN). subst D.
    exists (fun j i => if i =? n then nth j (control_points t) s0 else A j i). split.
    + intros i j Hi Hj. destruct (Nat.eqb_spec i n) as [->|]; [|apply HA; lia].
      rewrite Forall_forall in HN. apply HN, nth_In. destruct Ht as (_ & _ & _ & HL). lia.
    + intros i xs Hi HX. destruct (Nat.eqb_spec i n) as [->|]; [|apply HV; auto; lia].
      rewrite <- Hv by auto. reflexivity.
Qed.

Lemma convex_matrix D n (W : nat -> list T -> T) : D <> [] -> (forall i, i < n -> npos D (W i)) ->
  (forall xs, length xs = length D -> ssum n (fun i => W i xs) = s1) ->
  exists A : nat -> nat -> T,
    (forall j, j < n_coeffs D -> (forall i, i < n -> sle s0 (A j i)) /\ ssum n (A j) = s1) /\
    forall (V : Type) (ov : VOps T V) (M : VMod T V) (P : list V) (r : spline V), length P = n ->
      isv r D (fun xs => vsum n (fun i => vscale (W i xs) (nth i P v0))) ->
      forall j, j < n_coeffs D -> nth j (control_points r) v0 = vsum n (fun i => vscale (A j i) (nth i P v0)).
Proof.
  intros HD HW HS. destruct (choose_coeffs D n W HW) as (A & HA & HV). exists A. split.
  - intros j Hj. split; auto.
    apply (coef_unique (V := T) D (fun j => ssum n (A j)) (fun _ => s1) HD); auto. intros xs HX.
    rewrite (bezier_const (V := T) D xs s1 HX), <- (HS xs HX).
    etransitivity; [exact (bezier_vsum (V := T) D xs n (fun i j => A j i))|].
    exact (ssum_ext n _ _ (fun i Hi => eq_sym (HV i xs Hi HX))).
  - intros V ov M P r HP (Hr & Hd & Hv) j Hj.
    apply (coef_unique D (fun j => nth j (control_points r) v0) (fun j => vsum n (fun i => vscale (A j i) (nth i P v0))) HD); auto.
    intros xs HX. rewrite <- Hd at 1. change (value_at r xs = bezier D xs (fun j => vsum n (fun i => vscale (A j i) (nth i P v0)))).
    rewrite Hv by auto. rewrite (bezier_vsum D xs n (fun i j => vscale (A j i) (nth i P v0))).
    apply vsum_ext. intros i Hi. rewrite HV by auto. symmetry. apply bezier_scale_r.
Qed.
End Hull.
