(** Composition: values of the Bernstein basis splines, their tensor products
    and the composed spline. *)
From Coq Require Import Arith Lia List ZArith NArith Bool Ring Field.
From Verif Require Import Prelude Scalar Spec SpecSpline Sums Coord ModelBasis ModelSpline
  ProofIndex ProofBasis ProofEval ProofElevate ProofArith ProofMul.
Import ListNotations.
Local Open Scope nat_scope.

Lemma get_some {A} (l : list A) i x : nth_error l i = Some x -> get l i = Ok x.
Proof. intros H. unfold get. now rewrite H. Qed.

Fixpoint nsum (n : nat) (g : nat -> nat) : nat :=
  match n with 0 => 0 | S n' => nsum n' g + g n' end.

Lemma nsum_le n m g : n <= m -> nsum n g <= nsum m g.
Proof. induction 1; simpl; lia. Qed.
Lemma nsum_ge n g k : k < n -> g k <= nsum n g.
Proof. induction n; intros H; [lia|]. simpl. destruct (Nat.eq_dec k n) as [->|]; [lia|]. specialize (IHn ltac:(lia)). lia. Qed.
Lemma fold_left_add l a : fold_left Nat.add l a = a + fold_left Nat.add l 0.
Proof. revert a; induction l; intros a0; simpl; [lia|]. rewrite IHl, (IHl a). lia. Qed.
Lemma nsum_first n g : nsum (S n) g = g 0 + nsum n (fun i => g (S i)).
Proof. induction n; simpl in *; lia. Qed.
Lemma sum_degrees_nsum l : fold_left Nat.add l 0 = nsum (length l) (fun k => nth k l 0).
Proof.
  induction l; auto. cbn [fold_left]. rewrite fold_left_add, IHl.
  change (length (a :: l)) with (S (length l)). rewrite nsum_first. simpl. lia.
Qed.

Lemma valid_nth degs idx k : valid_index degs idx -> nth k idx 0 <= nth k degs 0.
Proof. intros H. revert k. induction H; intros [|k]; simpl; auto. Qed.

Section Compose.
Context {T : Type} {o : SOps T} {F : SField T}.
Add Field Tfield : (@sf_th T o F).
Context (MAXB : nat) (HB : MAXB <= 68).
(** degrees of the inner spline *)
Context (D : list nat) (HD : D <> []).

(** [s] has the degrees [n * D] and takes the values [g]. *)
Definition rep (s : spline T) (n : nat) (g : list T -> T) : Prop :=
  wf s /\ degrees s = map (Nat.mul n) D /\
  forall xs, length xs = length D -> value_at s xs = g xs.

Definition fits (n : nat) := Forall (fun p => n * p < MAXB) D.
Lemma fits_le n m : n <= m -> fits m -> fits n.
Proof. intros H. apply Forall_impl. intros p Hp. nia. Qed.

Lemma rep_ext s n n' g g' : rep s n g -> n = n' -> (forall xs, length xs = length D -> g xs = g' xs) -> rep s n' g'.
Proof. intros (A & B & C) <- H. split; auto. split; auto. intros. rewrite C, H; auto. Qed.

Lemma fits_map n : fits n -> Forall (fun p => p < MAXB) (map (Nat.mul n) D).
Proof. intros H. apply Forall_forall. intros x Hx. apply in_map_iff in Hx. destruct Hx as (y & <- & Hy).
  unfold fits in H. rewrite Forall_forall in H. auto. Qed.

Lemma rep_mul a b n m f g : rep a n f -> rep b m g -> fits (n + m) ->
  exists r, spline_mul_ss MAXB a b = Ok r /\ rep r (n + m) (fun xs => smul (f xs) (g xs)).
Proof.
  intros (Wa & Da & Va) (Wb & Db & Vb) HF.
  destruct (mul_ss_ok MAXB HB a b Wa Wb) as (r & E & Hr & Hd & HV).
  { rewrite Da, Db, !map_length. auto. }
  { rewrite Da, Db, (map2_add_mul MAXB HB). apply fits_map; auto. }
  exists r. split; auto. split; auto. split; [rewrite Hd, Da, Db; apply (map2_add_mul MAXB HB)|].
  intros xs HX. rewrite HV by (rewrite Da, map_length; auto). rewrite Va, Vb; auto.
Qed.

Lemma rep_scale a n f c : rep a n f ->
  exists r, scale_assign a c = Ok r /\ rep r n (fun xs => smul c (f xs)).
Proof.
  intros (Wa & Da & Va). unfold scale_assign. rewrite map_points_ok by auto.
  eexists. split; [reflexivity|]. split; [apply wf_map; auto|]. split; [exact Da|].
  intros xs HX. rewrite value_scale by auto. rewrite Va; auto.
Qed.

Lemma map_mul_0 : map (Nat.mul 0) D = repeat 0 (length D).
Proof. clear. induction D; simpl; f_equal; auto. Qed.

Lemma rep_one : exists r, const_one (length D) = Ok r /\ rep r 0 (fun _ => s1).
Proof.
  assert (HL : 0 < length D) by (destruct D; [congruence|simpl; lia]).
  destruct (const_one_ok (T := T) MAXB HB (length D) HL) as (r & E & Hr & Hd & HV).
  exists r. split; auto. split; auto. split; [rewrite Hd; symmetry; apply map_mul_0|auto].
Qed.

(** ** One direction *)
Lemma basis_splines_ok p c ic fc fi : rep c 1 fc -> rep ic 1 fi -> fits p -> p < MAXB ->
  exists b, bernstein_basis_splines MAXB (length D) p c ic = Ok b /\ length b = S p /\
    forall j, j <= p -> exists s, nth_error b j = Some s /\ rep s p
      (fun xs => smul (smul (sofN (binom p j)) (spow (fc xs) j)) (spow (fi xs) (p - j))).
Proof.
  intros Hc Hi HF Hp. unfold bernstein_basis_splines.
  destruct rep_one as (one & -> & H1). cbn [bind].
  set (dflt := mkSpline _ _ _ _).
  rewrite set_ok by (rewrite repeat_length; lia). cbn [bind].
  set (b0 := upd_list _ _ _).
  assert (HL0 : length b0 = S p) by (unfold b0; rewrite length_upd, repeat_length; lia).
  (* powers of c *)
  edestruct (for_up_inv (fun i '(b, m) => length b = S p /\ rep m (i - 1) (fun xs => spow (fc xs) (i - 1)) /\
    forall j, j < i -> rep (nth j b dflt) j (fun xs => spow (fc xs) j))) as ((b1 & m1) & E1 & L1 & _ & P1).
  3:{ rewrite E1. cbn [bind].
  (* powers of the complement *)
  edestruct (for_up_inv (fun i '(b, m) => length b = S p /\ rep m (i - 1) (fun xs => spow (fi xs) (i - 1)) /\
    forall j, j <= p -> if i <=? p - j then rep (nth j b dflt) j (fun xs => spow (fc xs) j)
      else rep (nth j b dflt) p (fun xs => smul (spow (fc xs) j) (spow (fi xs) (p - j)))))
    as ((b2 & m2) & E2 & L2 & _ & P2).
  3:{ rewrite E2. cbn [bind].
  (* binomial coefficients *)
  edestruct (for_up_inv (fun i b => length b = S p /\
    forall j, j <= p -> if i <=? p - j then rep (nth j b dflt) p (fun xs => smul (spow (fc xs) j) (spow (fi xs) (p - j)))
      else rep (nth j b dflt) p (fun xs => smul (smul (sofN (binom p j)) (spow (fc xs) j)) (spow (fi xs) (p - j)))))
    as (b3 & E3 & L3 & P3).
  3:{ rewrite E3. exists b3. split; [auto|]. split; [auto|]. intros j Hj.
      exists (nth j b3 dflt). split; [apply nth_error_nth'; lia|]. specialize (P3 j Hj).
      destruct (Nat.leb_spec (1 + (p - 1)) (p - j)) as [Hle|Hle].
      - replace j with 0 in * by lia. eapply rep_ext; [exact P3|auto|]. intros xs HX.
        cbv beta. rewrite binom_n_0, sofN_1. ring.
      - exact P3. }
  - split; auto. intros j Hj. specialize (P2 j Hj).
    destruct (Nat.leb_spec (1 + p) (p - j)); [lia|].
    destruct (Nat.leb_spec 1 (p - j)); [exact P2|].
    eapply rep_ext; [exact P2|auto|]. intros xs HX. cbv beta.
    replace j with p by lia. rewrite binom_nn, sofN_1. ring.
  - intros i b Hi' (HL & HN). rewrite (get_ok dflt) by lia. cbn [bind].
    rewrite choose_ok by lia. cbn [bind].
    pose proof (HN (p - i) ltac:(lia)) as Hq. rewrite (proj2 (Nat.leb_le i (p - (p - i)))) in Hq by lia.
    destruct (rep_scale _ _ _ (sofN (binom p i)) Hq) as (x & -> & Hx). cbn [bind].
    rewrite set_ok by lia. eexists. split; [reflexivity|]. rewrite length_upd. split; auto.
    intros j Hj. rewrite nth_upd by lia. destruct (Nat.eqb_spec j (p - i)) as [->|Hne].
    + rewrite (proj2 (Nat.leb_gt (S i) (p - (p - i)))) by lia.
      eapply rep_ext; [exact Hx|auto|]. intros xs HX. cbv beta.
      rewrite <- (binom_sym p i) by lia. ring.
    + specialize (HN j Hj). destruct (Nat.leb_spec i (p - j)), (Nat.leb_spec (S i) (p - j)); auto; lia. }
  - split; auto. split.
    { eapply rep_ext; [exact H1|reflexivity|]. intros; reflexivity. }
    intros j Hj. specialize (P1 j ltac:(lia)).
    destruct (Nat.leb_spec 1 (p - j)); [exact P1|]. replace j with p in * by lia.
    eapply rep_ext; [exact P1|auto|]. intros xs HX. cbv beta. rewrite Nat.sub_diag. simpl. ring.
  - intros i [b m] Hi' (HL & Hm & HN).
    destruct (rep_mul m ic _ _ _ _ Hm Hi) as (m' & -> & Hm'); [apply (fits_le _ p); auto; lia|]. cbn [bind].
    rewrite (get_ok dflt) by lia. cbn [bind].
    pose proof (HN (p - i) ltac:(lia)) as Hq. rewrite (proj2 (Nat.leb_le i (p - (p - i)))) in Hq by lia.
    destruct (rep_mul _ m' _ _ _ _ Hq Hm') as (x & -> & Hx); [apply (fits_le _ p); auto; lia|]. cbn [bind].
    rewrite set_ok by lia. cbn [bind]. eexists. split; [reflexivity|]. cbv beta iota. rewrite length_upd. split; auto. split.
    + eapply rep_ext; [exact Hm'|lia|]. intros xs HX. cbv beta.
      destruct i; [lia|]. replace (S (S i) - 1) with (S (S i - 1)) by lia. cbn [spow]. ring.
    + intros j Hj. rewrite nth_upd by lia. destruct (Nat.eqb_spec j (p - i)) as [->|Hne].
      * rewrite (proj2 (Nat.leb_gt (S i) (p - (p - i)))) by lia.
        eapply rep_ext; [exact Hx|lia|]. intros xs HX. cbv beta.
        replace (p - (p - i)) with (S (i - 1)) by lia. cbn [spow]. ring.
      * specialize (HN j Hj). destruct (Nat.leb_spec i (p - j)), (Nat.leb_spec (S i) (p - j)); auto; lia. }
  - split; auto. split.
    { eapply rep_ext; [exact H1|reflexivity|]. intros; reflexivity. }
    intros j Hj. replace j with 0 by lia. unfold b0. rewrite nth_upd by (rewrite repeat_length; lia).
    rewrite Nat.eqb_refl. eapply rep_ext; [exact H1|reflexivity|]. intros; reflexivity.
  - intros i [b m] Hi' (HL & Hm & HN).
    destruct (rep_mul m c _ _ _ _ Hm Hc) as (m' & -> & Hm'); [apply (fits_le _ p); auto; lia|]. cbn [bind].
    rewrite set_ok by lia. cbn [bind]. eexists. split; [reflexivity|]. cbv beta iota. rewrite length_upd.
    assert (Hr : rep m' i (fun xs => spow (fc xs) i)).
    { eapply rep_ext; [exact Hm'|lia|]. intros xs HX. cbv beta.
      replace i with (S (i - 1)) at 2 by lia. cbn [spow]. ring. }
    split; auto. split.
    + replace (S i - 1) with i by lia. exact Hr.
    + intros j Hj. rewrite nth_upd by lia. destruct (Nat.eqb_spec j i) as [->|Hne]; auto.
      apply HN. lia.
Qed.

(** ** All directions *)
Lemma all_basis_splines_ok {V} (outer : spline V) extract inverse (fc fi : nat -> list T -> T) :
  (forall k, k < length (degrees outer) -> exists c ic, extract k = Ok c /\ inverse c = Ok ic /\
     rep c 1 (fc k) /\ rep ic 1 (fi k)) ->
  Forall (fun p => fits p /\ p < MAXB) (degrees outer) ->
  exists bs, all_basis_splines MAXB outer (length D) extract inverse = Ok bs /\
    length bs = length (degrees outer) /\
    forall k j, k < length (degrees outer) -> j <= nth k (degrees outer) 0 ->
      exists s, nth_error (nth k bs []) j = Some s /\ rep s (nth k (degrees outer) 0)
        (fun xs => smul (smul (sofN (binom (nth k (degrees outer) 0) j)) (spow (fc k xs) j))
                        (spow (fi k xs) (nth k (degrees outer) 0 - j))).
Proof.
  intros HE HF. unfold all_basis_splines.
  edestruct (for_up_inv (fun i bs => length bs = length (degrees outer) /\
    forall k j, k < i -> j <= nth k (degrees outer) 0 ->
      exists s, nth_error (nth k bs []) j = Some s /\ rep s (nth k (degrees outer) 0)
        (fun xs => smul (smul (sofN (binom (nth k (degrees outer) 0) j)) (spow (fc k xs) j))
                        (spow (fi k xs) (nth k (degrees outer) 0 - j))))) as (bs & E & HL & HN).
  3:{ rewrite E. exists bs. split; auto. }
  - rewrite repeat_length. split; auto. intros; lia.
  - intros i bs Hi (HL & HN). rewrite (get_ok 0) by lia. cbn [bind].
    destruct (HE i ltac:(lia)) as (c & ic & -> & E2 & Hc & Hi2). cbn [bind]. rewrite E2. cbn [bind].
    rewrite Forall_forall in HF.
    destruct (HF (nth i (degrees outer) 0)) as (HF1 & HF2); [apply nth_In; lia|].
    destruct (basis_splines_ok _ _ _ _ _ Hc Hi2 HF1 HF2) as (b & -> & Lb & Hb). cbn [bind].
    rewrite set_ok by lia. eexists. split; [reflexivity|]. rewrite length_upd. split; auto.
    intros k j Hk Hj. rewrite nth_upd by lia. destruct (Nat.eqb_spec k i) as [->|Hne]; auto.
    apply HN; auto. lia.
Qed.

(** Product of the factors of the first [n] directions. *)
Fixpoint factors (n : nat) (g : nat -> T) : T :=
  match n with 0 => s1 | S n' => smul (factors n' g) (g n') end.

Lemma tensor_spline_ok bs idx dim (ds : nat -> nat) (g : nat -> nat -> list T -> T) :
  0 < dim -> length bs = dim -> length idx = dim -> fits (nsum dim ds) ->
  (forall k, k < dim -> exists s, nth_error (nth k bs []) (nth k idx 0) = Some s /\
     rep s (ds k) (g k (nth k idx 0))) ->
  exists t, tensor_spline MAXB bs idx dim = Ok t /\
    rep t (nsum dim ds) (fun xs => factors dim (fun k => g k (nth k idx 0) xs)).
Proof.
  intros Hd Hb Hi HF Hbs. unfold tensor_spline.
  rewrite (get_ok []) by lia. cbn [bind]. rewrite (get_ok 0) by lia. cbn [bind].
  destruct (Hbs 0 Hd) as (t0 & E0 & H0). rewrite (get_some _ _ _ E0). cbn [bind].
  edestruct (for_up_inv (fun i t => rep t (nsum i ds) (fun xs => factors i (fun k => g k (nth k idx 0) xs))))
    as (t & E & Ht).
  3:{ rewrite E. exists t. split; auto. replace (1 + (dim - 1)) with dim in Ht by lia. exact Ht. }
  - eapply rep_ext; [exact H0|reflexivity|]. intros xs HX. cbn [factors]. ring.
  - intros i t Hk Ht. cbv beta. rewrite (get_ok []) by lia. cbn [bind]. rewrite (get_ok 0) by lia. cbn [bind].
    destruct (Hbs i ltac:(lia)) as (s & Es & Hs). rewrite (get_some _ _ _ Es). cbn [bind].
    destruct (rep_mul _ _ _ _ _ _ Ht Hs) as (r & E & Hr).
    { apply (fits_le _ (nsum dim ds)); auto. change (nsum i ds + ds i) with (nsum (S i) ds). apply nsum_le. lia. }
    rewrite E. exists r. split; auto.
Qed.

(** ** The composed spline *)
Context {V : Type} {ov : VOps T V} {M : VMod T V}.
Add Ring Ering : (@ext_ring T V o ov F M).
Ltac vring := to_ext; ring.

Lemma bezier_scale_r degs xs (f : nat -> T) (q : V) :
  bezier degs xs (fun j => vscale (f j) q) = vscale (bezier degs xs f) q.
Proof.
  revert xs f; induction degs as [|p degs IH]; intros [|x xs] f; auto.
  rewrite !bezier_cons. rewrite <- (ssum_vsum (S p)), <- vsum_scale_l. apply vsum_ext. intros j Hj. rewrite IH. symmetry. exact (vm_mul _ _ q).
Qed.

(** The weight of outer control point [i] in the composition. *)
Definition hweight (fc fi : nat -> list T -> T) (degs : list nat) (i : nat) (xs : list T) : T :=
  factors (length degs) (fun k =>
    smul (smul (sofN (binom (nth k degs 0) (nth k (index_of degs i) 0))) (spow (fc k xs) (nth k (index_of degs i) 0)))
      (spow (fi k xs) (nth k degs 0 - nth k (index_of degs i) 0))).

Section Outer.
Context (outer : spline V) (Ho : wf outer).
Context (extract : nat -> res (spline T)) (inverse : spline T -> res (spline T)).
Context (fc fi : nat -> list T -> T).
Context (HE : forall k, k < length (degrees outer) -> exists c ic, extract k = Ok c /\ inverse c = Ok ic /\
     rep c 1 (fc k) /\ rep ic 1 (fi k)).
Context (HF : fits (sum_degrees outer)) (HM : Forall (fun p => p < MAXB) (degrees outer)).

Lemma outer_fits : Forall (fun p => fits p /\ p < MAXB) (degrees outer).
Proof.
  apply Forall_forall. intros p Hp. rewrite Forall_forall in HM. split; auto.
  destruct (In_nth _ _ 0 Hp) as (k & Hk & <-). apply (fits_le _ (sum_degrees outer)); auto.
  unfold sum_degrees. rewrite sum_degrees_nsum. apply (nsum_ge _ (fun k => nth k (degrees outer) 0)); auto.
Qed.

Lemma tensors : exists bs, all_basis_splines MAXB outer (length D) extract inverse = Ok bs /\
  forall i, exists t, tensor_spline MAXB bs (index_of (degrees outer) i) (length (degrees outer)) = Ok t /\
    rep t (sum_degrees outer) (hweight fc fi (degrees outer) i).
Proof.
  destruct (all_basis_splines_ok outer extract inverse fc fi HE outer_fits) as (bs & E & L & HN).
  exists bs. split; auto. intros i. unfold sum_degrees. rewrite sum_degrees_nsum.
  apply (tensor_spline_ok bs (index_of (degrees outer) i) (length (degrees outer))
    (fun k => nth k (degrees outer) 0)
    (fun k j xs => smul (smul (sofN (binom (nth k (degrees outer) 0) j)) (spow (fc k xs) j))
                        (spow (fi k xs) (nth k (degrees outer) 0 - j)))); auto.
  - apply wf_dim; auto.
  - apply length_index_of.
  - rewrite <- sum_degrees_nsum. exact HF.
  - intros k Hk. apply HN; auto. apply valid_nth. apply index_of_valid.
Qed.

Lemma list_eqb_refl (l : list nat) : list_eqb Nat.eqb l l = true.
Proof. clear. induction l; simpl; auto. rewrite Nat.eqb_refl. auto. Qed.

Lemma map_mul_comm n (l : list nat) : map (fun p => p * n) l = map (Nat.mul n) l.
Proof. apply map_ext. intros. apply Nat.mul_comm. Qed.

Lemma ComposeNumerator_ok :
  exists r, ComposeNumerator MAXB outer D extract inverse = Ok r /\ wf r /\
    degrees r = map (Nat.mul (sum_degrees outer)) D /\
    forall xs, length xs = length D -> value_at r xs =
      vsum (n_coeffs (degrees outer)) (fun i => vscale (hweight fc fi (degrees outer) i xs)
        (nth i (control_points outer) v0)).
Proof.
  unfold ComposeNumerator. rewrite map_mul_comm. set (N := sum_degrees outer) in *.
  assert (HNN : map (Nat.mul N) D <> []) by (destruct D; [congruence|simpl; congruence]).
  rewrite Spline_deg_ok by auto. cbn [bind].
  destruct tensors as (bs & -> & HT). cbn [bind].
  destruct Ho as (Hd & Hn & Hof & Hc). rewrite Hn.
  edestruct (for_up_inv (fun i r => wf r /\ degrees r = map (Nat.mul N) D /\
    forall xs, length xs = length D -> value_at r xs =
      vsum i (fun i => vscale (hweight fc fi (degrees outer) i xs) (nth i (control_points outer) v0))))
    as (r & E & Hr & Hdr & HV).
  3:{ rewrite E. exists r. auto. }
  - split; [apply wf_mk; auto; apply repeat_length|]. split; [reflexivity|].
    intros xs HX. unfold value_at. cbn [mk degrees control_points vsum].
    rewrite (bezier_ext _ _ _ (fun _ => v0)); [apply bezier_zero|].
    intros i Hi. apply nth_repeat.
  - intros i r Hi (Hr & Hdr & HV). cbv beta. rewrite LocalToGlobal_ok by exact Ho. cbn [bind].
    destruct (HT i) as (t & -> & Ht & Hdt & HVt). cbn [bind].
    rewrite Hdt. fold N. rewrite list_eqb_refl. cbn [assert_ bind].
    pose proof Hr as (_ & Hnr & _ & Hcr). pose proof Ht as (_ & _ & _ & Hct).
    rewrite Hdr in Hcr, Hnr. rewrite Hdt in Hct. fold N in Hct. rewrite Hnr.
    edestruct (for_up_inv (fun j c => length c = n_coeffs (map (Nat.mul N) D) /\
      forall g, g < n_coeffs (map (Nat.mul N) D) -> nth g c v0 = if g <? j then
         vadd (nth g (control_points r) v0) (vscale (nth g (control_points t) s0) (nth i (control_points outer) v0))
         else nth g (control_points r) v0)) as (c & E & HL & HN).
    3:{ rewrite E. cbn [bind]. eexists. split; [reflexivity|].
        split; [apply wf_upd; auto; congruence|]. split; [exact Hdr|].
        intros xs HX. cbn [vsum]. rewrite <- HV, <- HVt by auto. unfold value_at.
        cbn [with_cps degrees control_points]. rewrite <- bezier_scale_r, Hdt. fold N. rewrite Hdr.
        rewrite <- bezier_add. apply bezier_ext. intros g Hg. rewrite HN by auto.
        rewrite (proj2 (Nat.ltb_lt g _)) by auto. reflexivity. }
    + split; [exact Hcr|]. intros g Hg. reflexivity.
    + intros j c Hj (HL & HN). cbv beta. rewrite (get_ok v0) by lia. cbn [bind].
      rewrite (get_ok s0) by (rewrite Hct; lia). cbn [bind].
      rewrite (get_ok v0) by (rewrite Hc; lia). cbn [bind].
      rewrite set_ok by lia. eexists. split; [reflexivity|]. rewrite length_upd. split; auto.
      intros g Hg. rewrite nth_upd by lia. destruct (Nat.eqb_spec g j) as [->|Hne].
      * rewrite HN by lia. rewrite (proj2 (Nat.ltb_ge j j)), (proj2 (Nat.ltb_lt j (S j))) by lia. auto.
      * rewrite HN by lia. destruct (Nat.ltb_spec g j), (Nat.ltb_spec g (S j)); auto; lia.
Qed.

Lemma ComposeSensitivity_num_ok :
  exists ts, ComposeNumeratorSensitivity MAXB outer D extract inverse = Ok ts /\
    length ts = n_coeffs (degrees outer) /\
    forall i, i < n_coeffs (degrees outer) -> exists t, nth_error ts i = Some t /\
      rep t (sum_degrees outer) (hweight fc fi (degrees outer) i).
Proof.
  unfold ComposeNumeratorSensitivity. destruct tensors as (bs & -> & HT). cbn [bind].
  destruct Ho as (Hd & Hn & Hof & Hc). rewrite Hn.
  edestruct (for_up_inv (fun k ts => length ts = k /\
    forall i, i < k -> exists t, nth_error ts i = Some t /\
      rep t (sum_degrees outer) (hweight fc fi (degrees outer) i))) as (ts & E & HL & HN).
  3:{ rewrite E. exists ts. auto. }
  - split; auto. intros; lia.
  - intros k ts Hk (HL & HN). cbv beta. rewrite LocalToGlobal_ok by exact Ho. cbn [bind].
    destruct (HT k) as (t & -> & Ht). cbn [bind]. eexists. split; [reflexivity|].
    rewrite app_length. split; [simpl; lia|]. intros i Hi. destruct (Nat.eq_dec i k) as [->|].
    + exists t. rewrite nth_error_app2 by lia. rewrite HL, Nat.sub_diag. auto.
    + rewrite nth_error_app1 by lia. apply HN. lia.
Qed.
End Outer.
End Compose.

Section Weights.
Context {T V : Type} {o : SOps T} {F : SField T}.
Add Field Tfield2 : (@sf_th T o F).

(** With the complement [1 - c] the weights are the Bernstein polynomials. *)
Lemma factors_ext n (g h : nat -> T) : (forall k, k < n -> g k = h k) -> factors n g = factors n h.
Proof. intros H. induction n; simpl; auto. rewrite H, IHn; auto. Qed.
Lemma factors_first n (g : nat -> T) : factors (S n) g = smul (g 0) (factors n (fun k => g (S k))).
Proof. induction n; [simpl; ring|]. cbn [factors] in *. rewrite IHn. ring. Qed.
Lemma factors_mul n (g h : nat -> T) : factors n (fun k => smul (g k) (h k)) = smul (factors n g) (factors n h).
Proof. induction n; simpl; [ring|]. rewrite IHn. ring. Qed.

Lemma basis_at_factors degs (ys : list T) i : length ys = length degs ->
  basis_at degs ys i = factors (length degs) (fun k =>
    bernstein (nth k degs 0) (nth k (index_of degs i) 0) (nth k ys s0)).
Proof.
  revert ys i; induction degs as [|p degs IH]; intros [|y ys] i H; try discriminate; auto.
  change (length (p :: degs)) with (S (length degs)). rewrite factors_first. cbn [basis_at index_of nth].
  rewrite IH by (simpl in H; lia). reflexivity.
Qed.

Lemma hweight_poly (fc fi : nat -> list T -> T) degs i xs ys : length ys = length degs ->
  (forall k, k < length degs -> fc k xs = nth k ys s0 /\ fi k xs = ssub s1 (nth k ys s0)) ->
  hweight fc fi degs i xs = basis_at degs ys i.
Proof.
  intros HL H. unfold hweight. rewrite basis_at_factors by auto. apply factors_ext. intros k Hk.
  destruct (H k Hk) as (-> & ->). reflexivity.
Qed.

(** With the complement [w - c] they are the Bernstein polynomials at [c / w]
    times [w] to the sum of the degrees. *)
Lemma spow_add (x : T) m n : spow x (m + n) = smul (spow x m) (spow x n).
Proof. induction m; simpl; [ring|]. rewrite IHm. ring. Qed.
Lemma spow_smul (x y : T) n : spow (smul x y) n = smul (spow x n) (spow y n).
Proof. induction n; simpl; [ring|]. rewrite IHn. ring. Qed.
Lemma factors_pow n (w : T) (ds : nat -> nat) : factors n (fun k => spow w (ds k)) = spow w (nsum n ds).
Proof. induction n; simpl; auto. now rewrite spow_add, IHn. Qed.

Lemma hweight_rational (fc fi : nat -> list T -> T) (outer : spline V) i xs (w : T) ys :
  w <> s0 -> length ys = length (degrees outer) ->
  (forall k, k < length (degrees outer) -> fc k xs = smul w (nth k ys s0) /\ fi k xs = ssub w (fc k xs)) ->
  hweight fc fi (degrees outer) i xs = smul (spow w (sum_degrees outer)) (basis_at (degrees outer) ys i).
Proof.
  intros Hw HL H. unfold hweight. rewrite basis_at_factors by auto. unfold sum_degrees. rewrite sum_degrees_nsum.
  rewrite <- factors_pow, <- factors_mul. apply factors_ext. intros k Hk.
  destruct (H k Hk) as (E1 & E2). rewrite E2, E1. unfold bernstein.
  pose proof (valid_nth (degrees outer) _ k (index_of_valid (degrees outer) i)) as Hj.
  set (p := nth k (degrees outer) 0) in *. set (j := nth k (index_of (degrees outer) i) 0) in *.
  replace (ssub w (smul w (nth k ys s0))) with (smul w (ssub s1 (nth k ys s0))) by ring.
  rewrite !spow_smul. transitivity (smul (smul (spow w j) (spow w (p - j)))
    (smul (smul (sofN (binom p j)) (spow (nth k ys s0) j)) (spow (ssub s1 (nth k ys s0)) (p - j)))); [ring|].
  rewrite <- spow_add. replace (j + (p - j)) with p by lia. reflexivity.
Qed.
End Weights.
