(** Claims about the composition of polynomial splines. *)
From Coq Require Import Arith Lia List ZArith NArith Bool Ring Field QArith Qcanon.
From Verif Require Import Prelude Scalar Spec SpecSpline Sums Order Coord ModelBasis ModelSpline ModelPoint
  Examples ProofIndex ProofBasis ProofEval ProofElevate ProofUnique ClaimsA ProofArith ClaimsB ProofCube ClaimsC
  ProofMul ProofCompose.
Import ListNotations.
Local Open Scope nat_scope.

Lemma fold_sum (l : list nat) : fold_left Nat.add l 0 = list_sum l.
Proof. apply fold_symmetric; intros; lia. Qed.

Section Poly.
Context {T V : Type} {o : SOps T} {ov : VOps T V} {F : SField T} {M : VMod T V} {O : SOrder T}.
Add Field Tfield : (@sf_th T o F).
Add Ring Ering : (@ext_ring T V o ov F M).
Ltac vring := to_ext; ring.

Lemma vsum_upd n (c : nat -> T) (l : list V) i P delta : length l = n -> nth_error l i = Some P ->
  vsum n (fun j => vscale (c j) (nth j (upd_list l i (vadd P delta)) v0)) =
  vadd (vsum n (fun j => vscale (c j) (nth j l v0))) (vscale (c i) delta).
Proof.
  intros HL HP. assert (Hi : i < n) by (rewrite <- HL; apply nth_error_Some; congruence).
  transitivity (vadd (vsum n (fun j => vscale (c j) (nth j l v0)))
    (vsum n (fun j => if j =? i then vscale (c j) delta else v0))).
  - rewrite <- vsum_add. apply vsum_ext. intros j Hj. rewrite nth_upd by lia.
    destruct (Nat.eqb_spec j i) as [->|].
    + apply (nth_error_nth _ _ v0) in HP. rewrite HP. vring.
    + vring.
  - f_equal. rewrite (vsum_single n i); auto; [now rewrite Nat.eqb_refl|].
    intros j Hj Hne. destruct (Nat.eqb_spec j i); congruence.
Qed.

Context (d : nat) (inner : spline (point T d)) (Hi : wf inner).

Definition pfc (k : nat) (xs : list T) : T := coord d (value_at inner xs) k.

Lemma extract_rep k : k < d ->
  exists c ic, ExtractDimension inner k = Ok c /\ inverse_poly c = Ok ic /\
    rep (degrees inner) c 1 (pfc k) /\ rep (degrees inner) ic 1 (fun xs => ssub s1 (pfc k xs)).
Proof.
  intros Hk. destruct (ExtractDimension_ok inner k Hi Hk) as (c & E & Hc & Hd & HC).
  assert (HV : forall xs : list T, value_at c xs = pfc k xs).
  { intros xs. unfold pfc, value_at. rewrite coord_bezier, Hd. apply bezier_ext. intros i Hx. rewrite HC.
    destruct Hi as (_ & _ & _ & HL).
    rewrite (nth_indep _ v0 (coord d v0 k)) by (rewrite map_length; lia).
    apply (map_nth (fun p => coord d p k)). }
  destruct (c21_pointwise T T o _ F _ c s0 s1 Hc) as (_ & _ & _ & _ & _ & _ & _ & A).
  destruct A as (ic & E2 & Hic & Hd2 & HV2).
  exists c, ic. split; auto. split; auto.
  assert (D1 : map (Nat.mul 1) (degrees inner) = degrees inner).
  { rewrite <- (map_id (degrees inner)) at 2. apply map_ext. intros; lia. }
  split.
  - split; auto. split; [congruence|]. auto.
  - split; auto. split; [congruence|]. intros xs HX.
    destruct (HV2 xs) as (a & E3 & E4); [congruence|].
    rewrite !Evaluate_value in * by (auto; congruence). injection E3 as <-. injection E4 as ->.
    rewrite HV. reflexivity.
Qed.

Lemma fits_dec : exists b, FitsIntoUnitCube inner = Ok b /\
  (b = true <-> forall p k, In p (control_points inner) -> k < d -> in_unit (coord d p k)).
Proof.
  destruct (FitsIntoUnitCube_ok inner Hi) as (b & E & H). exists b. split; auto. rewrite H. split.
  - intros A p k Hp Hk. destruct (nth_in _ _ v0 Hp) as (i & Hn & <-). apply (A i k Hn Hk).
  - intros A i k Hn Hk. apply A; auto. apply nth_In; auto.
Qed.

Context (Hcube : forall p k, In p (control_points inner) -> k < d -> in_unit (coord d p k)).

Lemma fits_true : FitsIntoUnitCube inner = Ok true.
Proof. destruct fits_dec as (b & E & H). rewrite E. f_equal. apply H. exact Hcube. Qed.

Lemma plist_nth (p : point T d) k : nth k (plist d p) s0 = coord d p k.
Proof. reflexivity. Qed.

End Poly.

Section Poly2.
Context {T V : Type} {o : SOps T} {ov : VOps T V} {F : SField T} {M : VMod T V} {O : SOrder T}.
Context (MAXB : nat) (HB : MAXB <= 68) (d : nat) (inner : spline (point T d)) (Hi : wf inner).
Context (Hcube : forall p k, In p (control_points inner) -> k < d -> in_unit (coord d p k)).
Context (outer : spline V) (Ho : wf outer) (Hdim : length (degrees outer) = d).
Context (HF : Forall (fun p => list_sum (degrees outer) * p < MAXB) (degrees inner)).
Context (HM : Forall (fun p => p < MAXB) (degrees outer)).

Lemma sum_fits : fits MAXB (degrees inner) (sum_degrees outer).
Proof. unfold fits, sum_degrees. rewrite fold_sum. exact HF. Qed.

Definition cweight i (xs : list T) : T :=
  basis_at (degrees outer) (plist d (value_at inner xs)) i.

Lemma cweight_eq i xs :
  hweight (pfc d inner) (fun k xs => ssub s1 (pfc d inner k xs)) (degrees outer) i xs = cweight i xs.
Proof.
  apply hweight_poly; [rewrite plist_length; auto|]. intros k Hk. split; reflexivity.
Qed.

Lemma extract_all : forall k, k < length (degrees outer) ->
  exists c ic, ExtractDimension inner k = Ok c /\ inverse_poly c = Ok ic /\
    rep (degrees inner) c 1 (pfc d inner k) /\ rep (degrees inner) ic 1 (fun xs => ssub s1 (pfc d inner k xs)).
Proof. intros k Hk. apply extract_rep; auto. lia. Qed.

Lemma Compose_ok : exists r, Compose MAXB outer inner = Ok r /\ wf r /\
  degrees r = map (Nat.mul (list_sum (degrees outer))) (degrees inner) /\
  forall xs, length xs = length (degrees inner) -> value_at r xs =
    vsum (n_coeffs (degrees outer)) (fun i => vscale (cweight i xs) (nth i (control_points outer) v0)).
Proof.
  unfold Compose. rewrite fits_true by auto. cbn [bind negb].
  destruct (ComposeNumerator_ok MAXB HB (degrees inner) ltac:(apply Hi) outer Ho (ExtractDimension inner) inverse_poly
    (pfc d inner) (fun k xs => ssub s1 (pfc d inner k xs)) extract_all sum_fits HM) as (r & E & Hr & Hd & HV).
  exists r. split; auto. split; auto. split; [rewrite Hd; unfold sum_degrees; rewrite fold_sum; auto|].
  intros xs HX. rewrite HV by auto. apply vsum_ext. intros i _. now rewrite cweight_eq.
Qed.

Lemma Compose_value r : Compose MAXB outer inner = Ok r ->
  forall xs, length xs = length (degrees inner) -> value_at r xs = value_at outer (plist d (value_at inner xs)).
Proof.
  destruct Compose_ok as (r' & -> & _ & _ & HV). intros E xs HX. injection E as <-.
  rewrite HV by auto. symmetry. apply bezier_flat. rewrite plist_length. auto.
Qed.

Lemma Sensitivity_ok : exists ts, ComposeSensitivity MAXB outer inner = Ok ts /\
  length ts = n_coeffs (degrees outer) /\
  forall i, i < n_coeffs (degrees outer) -> exists t, nth_error ts i = Some t /\
    rep (degrees inner) t (list_sum (degrees outer)) (cweight i).
Proof.
  unfold ComposeSensitivity. rewrite fits_true by auto. cbn [bind negb].
  destruct (ComposeSensitivity_num_ok MAXB HB (degrees inner) ltac:(apply Hi) outer Ho (ExtractDimension inner) inverse_poly
    (pfc d inner) (fun k xs => ssub s1 (pfc d inner k xs)) extract_all sum_fits HM) as (ts & E & HL & HN).
  exists ts. split; auto. split; auto. intros i Hx. destruct (HN i Hx) as (t & Et & Ht). exists t. split; auto.
  eapply rep_ext; [exact Ht|apply fold_sum|]. intros. apply cweight_eq.
Qed.
End Poly2.

Lemma c28_compose : forall (T V : Type) (o : SOps T) (ov : VOps T V) (F : SField T) (M : VMod T V) (O : SOrder T)
  (MAXB : nat) (outer : spline V) (inner : spline (point T (length (degrees outer)))),
  MAXB <= 68 -> wf outer -> wf inner ->
  (forall p k, In p (control_points inner) -> k < length (degrees outer) -> in_unit (coord _ p k)) ->
  Forall (fun p => list_sum (degrees outer) * p < MAXB) (degrees inner) ->
  Forall (fun p => p < MAXB) (degrees outer) ->
  exists r, Compose MAXB outer inner = Ok r /\ wf r /\
    degrees r = map (fun p => list_sum (degrees outer) * p) (degrees inner) /\
    forall xs : list T, length xs = length (degrees inner) ->
      exists p v, Evaluate inner xs = Ok p /\ Evaluate outer (plist _ p) = Ok v /\ Evaluate r xs = Ok v.
Proof.
  intros T V o ov F M O MAXB outer inner HB Ho Hi HC HF HM.
  destruct (Compose_ok MAXB HB _ inner Hi HC outer Ho eq_refl HF HM) as (r & E & Hr & Hd & _).
  exists r. do 3 (split; [auto|]). intros xs HX.
  exists (value_at inner xs), (value_at r xs).
  rewrite (Compose_value MAXB HB _ inner Hi HC outer Ho eq_refl HF HM r E xs HX) at 1.
  rewrite !Evaluate_value; auto.
  - rewrite Hd, map_length. auto.
  - apply plist_length.
Qed.

Lemma c28_compose_outside : forall (T V : Type) (o : SOps T) (ov : VOps T V) (F : SField T) (O : SOrder T)
  (MAXB d : nat) (outer : spline V) (inner : spline (point T d)), wf inner ->
  (exists p k, In p (control_points inner) /\ k < d /\ ~ in_unit (coord _ p k)) ->
  Compose MAXB outer inner = Throw /\ ComposeSensitivity MAXB outer inner = Throw.
Proof.
  intros T V o ov F O MAXB d outer inner Hi (p & k & Hp & Hk & Hn).
  destruct (fits_dec d inner Hi) as (b & E & H). unfold Compose, ComposeSensitivity. rewrite E. cbn [bind].
  destruct b; [|auto]. exfalso. apply Hn. apply H; auto.
Qed.

Lemma c29_sensitivity : forall (T V : Type) (o : SOps T) (ov : VOps T V) (F : SField T) (M : VMod T V)
  (O : SOrder T) (MAXB : nat) (outer : spline V) (inner : spline (point T (length (degrees outer)))),
  MAXB <= 68 -> wf outer -> wf inner ->
  (forall p k, In p (control_points inner) -> k < length (degrees outer) -> in_unit (coord _ p k)) ->
  Forall (fun p => list_sum (degrees outer) * p < MAXB) (degrees inner) ->
  Forall (fun p => p < MAXB) (degrees outer) ->
  exists ts r, ComposeSensitivity MAXB outer inner = Ok ts /\ length ts = length (control_points outer) /\
    Compose MAXB outer inner = Ok r /\
    (** moving control point i by delta *)
    (forall i P (delta : V), nth_error (control_points outer) i = Some P ->
       exists t r', nth_error ts i = Some t /\ wf t /\
         Compose MAXB (with_cps outer (upd_list (control_points outer) i (vadd P delta))) inner = Ok r' /\
         forall xs : list T, length xs = length (degrees inner) ->
           exists a c, Evaluate r xs = Ok a /\ Evaluate t xs = Ok c /\
             Evaluate r' xs = Ok (vadd a (vscale c delta))) /\
    (** the composition is the combination of the control points *)
    (forall xs : list T, length xs = length (degrees inner) ->
       exists cs : list T, mapM (fun t => Evaluate t xs) ts = Ok cs /\
         Evaluate r xs = Ok (vsum (length ts) (fun i => vscale (nth i cs s0) (nth i (control_points outer) v0)))).
Proof.
  intros T V o ov F M O MAXB outer inner HB Ho Hi HC HF HM.
  destruct (Sensitivity_ok MAXB HB _ inner Hi HC outer Ho eq_refl HF HM) as (ts & ET & HL & HT).
  destruct (Compose_ok MAXB HB _ inner Hi HC outer Ho eq_refl HF HM) as (r & E & Hr & Hd & HV).
  pose proof Ho as (_ & _ & _ & HLc).
  exists ts, r. split; auto. split; [congruence|]. split; auto. split.
  - intros i P delta HP.
    assert (Hn : i < n_coeffs (degrees outer)) by (rewrite <- HLc; apply nth_error_Some; congruence).
    destruct (HT i Hn) as (t & Et & Ht & Hdt & HVt).
    set (outer' := with_cps outer _).
    assert (Ho' : wf outer') by (apply wf_upd; auto; apply length_upd).
    destruct (Compose_ok MAXB HB _ inner Hi HC outer' Ho' eq_refl HF HM) as (r' & E' & Hr' & Hd' & HV').
    exists t, r'. split; auto. split; auto. split; [exact E'|]. intros xs HX.
    exists (value_at r xs), (value_at t xs). rewrite !Evaluate_value; auto.
    all: try (rewrite ?Hd, ?Hdt, ?Hd', map_length; auto; fail).
    split; auto. split; auto. f_equal. rewrite HV', HV, HVt by auto.
    change (degrees outer') with (degrees outer).
    change (cweight (length (degrees outer)) inner outer') with (cweight (length (degrees outer)) inner outer).
    change (control_points outer') with (upd_list (control_points outer) i (vadd P delta)).
    apply (vsum_upd _ (fun j => cweight _ inner outer j xs)); auto.
  - intros xs HX. exists (map (fun t => value_at t xs) ts). split.
    { apply mapM_ok. intros t Ht. destruct (In_nth_error _ _ Ht) as (i & Ei).
      assert (Hn : i < n_coeffs (degrees outer)) by (rewrite <- HL; apply nth_error_Some; congruence).
      destruct (HT i Hn) as (t' & Et & Hwt & Hdt & HVt). assert (t' = t) by congruence. subst t'.
      apply Evaluate_value; auto. rewrite Hdt, map_length. auto. }
    rewrite Evaluate_value; auto.
    2:{ rewrite Hd, map_length. auto. }
    f_equal. rewrite HV, HL by auto. apply vsum_ext. intros i Hn.
    destruct (HT i Hn) as (t' & Et & Hwt & Hdt & HVt).
    f_equal. rewrite (nth_error_nth _ _ s0 (map_nth_error (fun t => value_at t xs) i ts Et)).
    symmetry. apply HVt; auto.
Qed.
