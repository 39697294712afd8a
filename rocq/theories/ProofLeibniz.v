(** The Leibniz recursion over multi-indices used for derivatives of rational splines:
    flattened indices, the loop, and the recursion it solves. *)
From Coq Require Import Arith Lia List ZArith NArith Bool Ring Field.
From Verif Require Import Prelude Scalar Spec SpecSpline Sums Coord ModelBasis ModelSpline ModelRational
  SpecRational ProofIndex ProofBasis ProofEval ProofElevate ProofArith ProofDeriv ProofDerivSpline.
Import ListNotations.
Local Open Scope nat_scope.

(** ** Multi-indices *)
Fixpoint subset (a b : list nat) : bool :=
  match a, b with
  | x :: a', y :: b' => (y <=? x) && subset a' b'
  | _, _ => true
  end.
Lemma subset_valid a b : length b = length a -> (subset a b = true <-> valid_index a b).
Proof.
  revert b; induction a as [|x a IH]; intros [|y b] H; try discriminate; cbn [subset].
  - split; auto. intros _. constructor.
  - rewrite andb_true_iff, Nat.leb_le, IH by (simpl in H; lia). split.
    + intros (H1 & H2). constructor; auto.
    + intros HV. inversion HV; auto.
Qed.
Lemma valid_refl a : valid_index a a.
Proof. induction a; constructor; auto. Qed.
Lemma valid_trans a b c : valid_index a b -> valid_index b c -> valid_index a c.
Proof.
  intros H. revert c. induction H; intros c H'; inversion H'; subst; constructor; auto; try lia.
  apply IHForall2; auto.
Qed.
Definition isub (a b : list nat) : list nat := map2 Nat.sub a b.
Lemma length_isub a b : length b = length a -> length (isub a b) = length a.
Proof. intros. unfold isub. rewrite length_map2; auto. Qed.
Lemma valid_isub a b : length b = length a -> valid_index a (isub a b).
Proof.
  revert b; induction a as [|x a IH]; intros [|y b] H; try discriminate; constructor; [lia|].
  apply IH. simpl in H; lia.
Qed.
Lemma position_isub nd a b : length a = length nd -> valid_index a b ->
  position nd (isub a b) = position nd a - position nd b /\ position nd b <= position nd a.
Proof.
  revert a b; induction nd as [|n nd IH]; intros [|x a] [|y b] HL HV; try discriminate; inversion HV; subst.
  - simpl. auto.
  - destruct (IH a b) as (E & HLe); [simpl in HL; lia|auto|]. cbn [isub map2 position]. fold (isub a b).
    rewrite E. split; [|nia]. rewrite Nat.mul_sub_distr_l.
    pose proof (Nat.mul_le_mono_l _ _ (S n) HLe). lia.
Qed.

Lemma mbinom_app a b a' b' : length b = length a -> mbinom (a ++ a') (b ++ b') = (mbinom a b * mbinom a' b')%N.
Proof.
  revert b; induction a as [|x a IH]; intros [|y b] H; try discriminate; cbn [app mbinom]; [lia|].
  rewrite IH by (simpl in H; lia). lia.
Qed.
Lemma mbinom_pos a b : valid_index a b -> (0 < mbinom a b)%N.
Proof. induction 1; cbn [mbinom]; [lia|]. apply N.mul_pos_pos; auto. apply binom_pos; auto. Qed.
Lemma mbinom_0 a : mbinom a (repeat 0 (length a)) = 1%N.
Proof. induction a; cbn [length repeat mbinom]; auto. rewrite IHa, binom_n_0. reflexivity. Qed.
Lemma mbinom_firstn a b k : valid_index a b -> (mbinom (firstn k a) (firstn k b) <= mbinom a b)%N.
Proof.
  intros H. revert k. induction H; intros [|k]; cbn [firstn mbinom]; try lia.
  - apply N.lt_pred_le. simpl. apply N.mul_pos_pos; [apply binom_pos; auto|apply mbinom_pos; auto].
  - apply N.mul_le_mono_l. apply IHForall2.
Qed.

Lemma binom_le_pow n k : (binom n k <= 2 ^ N.of_nat n)%N.
Proof.
  revert k; induction n; intros k.
  - destruct k; simpl; lia.
  - rewrite Nat2N.inj_succ, N.pow_succ_r'. destruct k; [rewrite binom_n_0|rewrite binom_SS].
    + pose proof (N.pow_nonzero 2 (N.of_nat n)). lia.
    + pose proof (IHn k). pose proof (IHn (S k)). lia.
Qed.
Lemma mbinom_le_pow a : forall b, (mbinom a b <= 2 ^ N.of_nat (list_sum a))%N.
Proof.
  induction a as [|x a IH]; intros b; cbn [mbinom]; [simpl; lia|].
  destruct b as [|y b].
  - pose proof (N.pow_nonzero 2 (N.of_nat (list_sum (x :: a)))). lia.
  - change (list_sum (x :: a)) with (x + list_sum a). rewrite Nat2N.inj_add, N.pow_add_r.
    apply N.mul_le_mono; [apply binom_le_pow|apply IH].
Qed.
Lemma valid_sum a b : valid_index a b -> list_sum b <= list_sum a.
Proof. induction 1; [simpl; lia|]. change (y + list_sum l' <= x + list_sum l). lia. Qed.
Lemma binoms_fit_small orders : list_sum orders <= 63 -> binoms_fit orders.
Proof.
  intros H a b Ha Hb. eapply N.le_lt_trans; [apply mbinom_le_pow|].
  apply N.pow_lt_mono_r; [lia|]. pose proof (valid_sum _ _ Ha). lia.
Qed.

(** ** The helper lambdas *)
Lemma local_ids_ok nd g : local_ids nd g = Ok (index_of nd g).
Proof.
  unfold local_ids.
  edestruct (for_up_inv (fun i '(ids, id) => length ids = length nd /\ id = g / n_coeffs (firstn i nd) /\
    forall j, j < length nd -> nth j ids 0 = if j <? i then nth j (index_of nd g) 0 else 0))
    as ((ids & id) & E & HL & _ & HN).
  3:{ rewrite E. cbn [bind]. f_equal. apply (list_ext 0); [rewrite length_index_of; auto|].
      intros i Hi. rewrite HN by lia. rewrite (proj2 (Nat.ltb_lt i _)) by lia. reflexivity. }
  - cbv beta iota. rewrite repeat_length. split; auto. split.
    + change (n_coeffs (firstn 0 nd)) with 1. symmetry; apply Nat.div_1_r.
    + intros j Hj. apply nth_repeat.
  - intros i [ids id] Hi (HL & -> & HN). cbv beta iota. rewrite (get_ok 0) by lia. cbn [bind].
    set (q := g / n_coeffs (firstn i nd)).
    assert (ED : g / n_coeffs (firstn (S i) nd) = q / S (nth i nd 0)).
    { unfold q. rewrite Nat.div_div by (pose proof (n_coeffs_pos (firstn i nd)); lia).
      f_equal. rewrite (firstn_S_nth 0) by lia. rewrite n_coeffs_app. unfold n_coeffs at 2. simpl. lia. }
    assert (EI : nth i (index_of nd g) 0 = q mod S (nth i nd 0)) by (rewrite nth_index_of by lia; reflexivity).
    destruct (Nat.eqb_spec (nth i nd 0) 0) as [E0|E0].
    + eexists. split; [reflexivity|]. cbv beta iota. split; auto. split.
      * rewrite ED, E0. symmetry. apply Nat.div_1_r.
      * intros j Hj. rewrite HN by auto. destruct (Nat.ltb_spec j i), (Nat.ltb_spec j (S i)); auto; try lia.
        replace j with i by lia. rewrite EI, E0. reflexivity.
    + rewrite set_ok by lia. cbn [bind]. eexists. split; [reflexivity|]. cbv beta iota. rewrite length_upd.
      rewrite Nat.add_1_r. split; auto. split.
      * rewrite ED. pose proof (Nat.div_mod_eq q (S (nth i nd 0))) as Hdm.
        symmetry. apply (Nat.div_unique _ _ _ 0); [lia|]. lia.
      * intros j Hj. rewrite nth_upd by lia. destruct (Nat.eqb_spec j i) as [->|Hne].
        -- rewrite (proj2 (Nat.ltb_lt i _)) by lia. symmetry. exact EI.
        -- rewrite HN by auto. destruct (Nat.ltb_spec j i), (Nat.ltb_spec j (S i)); auto; lia.
Qed.

Lemma global_ids_ok nd a : valid_index nd a -> global_ids nd a = Ok (position nd a).
Proof.
  intros HV. pose proof (valid_len _ _ HV) as HL. unfold global_ids.
  edestruct (for_up_inv (fun i '(id, off) => id = position (firstn i nd) (firstn i a) /\
    off = n_coeffs (firstn i nd))) as ((id & off) & E & -> & _).
  3:{ rewrite E. cbn [bind]. rewrite Nat.add_0_l. rewrite firstn_all, <- HL, firstn_all. reflexivity. }
  - split; reflexivity.
  - intros i [id off] Hi (-> & ->). cbv beta iota. rewrite (get_ok 0) by lia. cbn [bind].
    assert (EP : position (firstn (S i) nd) (firstn (S i) a) =
      position (firstn i nd) (firstn i a) + n_coeffs (firstn i nd) * nth i a 0).
    { apply position_firstn_S; lia. }
    assert (EN : n_coeffs (firstn (S i) nd) = n_coeffs (firstn i nd) * (nth i nd 0 + 1)).
    { rewrite (firstn_S_nth 0) by lia. rewrite n_coeffs_app. unfold n_coeffs at 2. simpl. lia. }
    destruct (Nat.eqb_spec (nth i nd 0) 0) as [E0|E0].
    + eexists. split; [reflexivity|]. cbv beta iota. rewrite EP, EN, E0.
      pose proof (valid_nth_le nd a i HV). replace (nth i a 0) with 0 by lia. lia.
    + rewrite (get_ok 0) by lia. cbn [bind]. eexists. split; [reflexivity|]. cbv beta iota. rewrite EP, EN. lia.
Qed.

Lemma position_max nd : position nd nd + 1 = n_coeffs nd.
Proof. induction nd; [reflexivity|]. rewrite n_coeffs_cons. cbn [position]. nia. Qed.

Lemma subset_firstn a b k : k < length a -> length b = length a ->
  subset (firstn (S k) a) (firstn (S k) b) = subset (firstn k a) (firstn k b) && (nth k b 0 <=? nth k a 0).
Proof.
  revert b k; induction a as [|x a IH]; intros [|y b] k Hk HL; try discriminate; [simpl in Hk; lia|].
  destruct k as [|k].
  - cbn [firstn subset nth]. destruct (y <=? x); reflexivity.
  - change (subset (firstn (S (S k)) (x :: a)) (firstn (S (S k)) (y :: b))) with
      ((y <=? x) && subset (firstn (S k) a) (firstn (S k) b)).
    rewrite IH by (simpl in *; lia). cbn [firstn subset nth]. rewrite andb_assoc. reflexivity.
Qed.

Lemma is_not_subset_ok a b : length b = length a -> is_not_subset a b (length a) = Ok (negb (subset a b)).
Proof.
  intros HL. unfold is_not_subset.
  edestruct (for_up_inv (fun i (f : bool) => f = negb (subset (firstn i a) (firstn i b)))) as (f & E & ->).
  3:{ rewrite E. rewrite Nat.add_0_l, firstn_all, <- HL, firstn_all. reflexivity. }
  - reflexivity.
  - intros i f Hi ->. cbv beta. rewrite subset_firstn by lia.
    destruct (subset (firstn i a) (firstn i b)); cbn [negb andb].
    + rewrite (get_ok 0) by lia. cbn [bind]. rewrite (get_ok 0) by lia. cbn [bind].
      eexists. split; [reflexivity|]. rewrite <- Nat.ltb_antisym. reflexivity.
    + eexists. split; reflexivity.
Qed.

Definition wbinom (a b : list nat) : N := (mbinom a b mod 2 ^ 64)%N.
Lemma binom_product_ok MAXB a b : MAXB <= 68 -> Forall (fun k => k < MAXB) a -> valid_index a b ->
  binom_product MAXB a b (length a) = Ok (wbinom a b).
Proof.
  intros HB HM HV. pose proof (valid_len _ _ HV) as HL. unfold binom_product.
  edestruct (for_up_inv (fun i f => f = wbinom (firstn i a) (firstn i b))) as (f & E & ->).
  3:{ rewrite E. rewrite Nat.add_0_l, firstn_all, <- HL, firstn_all. reflexivity. }
  - reflexivity.
  - intros i f Hi ->. cbv beta. rewrite (get_ok 0) by lia. cbn [bind]. rewrite (get_ok 0) by lia. cbn [bind].
    pose proof (valid_nth_le a b i HV). rewrite choose_ok; auto.
    2:{ eapply Forall_forall in HM; eauto. apply nth_In. lia. }
    cbn [bind]. eexists. split; [reflexivity|].
    assert (EM : mbinom (firstn (S i) a) (firstn (S i) b) =
      (mbinom (firstn i a) (firstn i b) * binom (nth i a 0%nat) (nth i b 0%nat))%N).
    { rewrite !(firstn_S_nth 0) by lia. rewrite mbinom_app by (rewrite !firstn_length; lia). cbn [mbinom]. lia. }
    unfold wbinom. rewrite EM. apply N.mul_mod_idemp_l. discriminate.
Qed.
Lemma wbinom_fit orders a b : binoms_fit orders -> valid_index orders a -> valid_index a b -> wbinom a b = mbinom a b.
Proof. intros H Ha Hb. apply N.mod_small. apply (H a b); auto. Qed.

(** ** The recursion *)
Section Rec.
Context {T V : Type} {o : SOps T} {ov : VOps T V} {F : SField T} {M : VMod T V}.
Add Field Tfield : (@sf_th T o F).
Add Ring Ering : (@ext_ring T V o ov F M).
Ltac vring := to_ext; ring.

Section Coeff.
(** [cf] gives the binomial factors. *)
Context (cf : list nat -> list nat -> N).

Definition lterm (nd : list nat) (w : nat -> T) (D : nat -> V) (i j : nat) : V :=
  if subset (index_of nd i) (index_of nd j) then
    vscale (smul (sofN (cf (index_of nd i) (index_of nd j))) (w j)) (D (i - j)) else v0.
Fixpoint leibs (nd : list nat) (w : nat -> T) (inv : T) (A : nat -> V) (n : nat) : list V :=
  match n with
  | 0 => []
  | S i => let l := leibs nd w inv A i in
      l ++ [vscale inv (vsub (A i) (vsum i (fun j => lterm nd w (fun g => nth g l v0) i (S j))))]
  end.
Definition leib nd w inv A (i : nat) : V := nth i (leibs nd w inv A (S i)) v0.

Lemma length_leibs nd w inv A n : length (leibs nd w inv A n) = n.
Proof. induction n; auto. cbn [leibs]. rewrite app_length, IHn. simpl. lia. Qed.
Lemma nth_leibs nd w inv A n i : i < n -> nth i (leibs nd w inv A n) v0 = leib nd w inv A i.
Proof.
  intros H. induction n; [lia|]. destruct (Nat.eq_dec i n) as [->|]; [reflexivity|].
  cbn [leibs]. rewrite app_nth1 by (rewrite length_leibs; lia). apply IHn. lia.
Qed.
Lemma leib_eq nd w inv A i : leib nd w inv A i =
  vscale inv (vsub (A i) (vsum i (fun j => lterm nd w (leib nd w inv A) i (S j)))).
Proof.
  unfold leib at 1. cbn [leibs]. rewrite app_nth2; rewrite length_leibs; [|lia].
  rewrite Nat.sub_diag. cbn [nth]. f_equal. f_equal. apply vsum_ext. intros j Hj.
  unfold lterm. destruct (subset _ _); auto. f_equal. apply nth_leibs. lia.
Qed.
Lemma leib_unique nd w inv A (D : nat -> V) n :
  (forall i, i < n -> D i = vscale inv (vsub (A i) (vsum i (fun j => lterm nd w D i (S j))))) ->
  forall i, i < n -> D i = leib nd w inv A i.
Proof.
  intros H i. induction i as [i IH] using lt_wf_ind. intros Hi. rewrite H, leib_eq by auto.
  f_equal. f_equal. apply vsum_ext. intros j Hj. unfold lterm. destruct (subset _ _); auto. f_equal.
  apply IH; lia.
Qed.

End Coeff.

Lemma leib_coeff cf cf' nd w inv A i : (forall a b, valid_index nd a -> valid_index a b -> cf a b = cf' a b) ->
  leib cf nd w inv A i = leib cf' nd w inv A i.
Proof.
  intros H. apply (leib_unique cf' nd w inv A _ (S i)); [|lia]. intros k Hk. rewrite leib_eq.
  f_equal. f_equal. apply vsum_ext. intros j Hj. unfold lterm. destruct (subset _ _) eqn:ES; auto.
  apply subset_valid in ES; [|now rewrite !length_index_of].
  rewrite H; auto. apply index_of_valid.
Qed.

Context (MAXB : nat) (HB : MAXB <= 68).

Lemma leibniz_loop_ok {X} (dflt : X) sub scale (P : X -> Prop) (Phi : (X -> V) -> Prop) nd A w inv :
  Forall (fun k => k < MAXB) nd ->
  length A = n_coeffs nd -> length w = n_coeffs nd -> Forall P A ->
  (forall x c y, P x -> P y -> exists z, sub x c y = Ok z /\ P z /\
     forall phi, Phi phi -> phi z = vsub (phi x) (vscale c (phi y))) ->
  (forall x, P x -> exists z, scale x = Ok z /\ P z /\ forall phi, Phi phi -> phi z = vscale inv (phi x)) ->
  exists ds, leibniz_loop MAXB dflt sub scale nd (n_coeffs nd) A w = Ok ds /\ length ds = n_coeffs nd /\
    forall i, i < n_coeffs nd -> P (nth i ds dflt) /\
      forall phi, Phi phi -> phi (nth i ds dflt) =
        leib wbinom nd (fun j => nth j w s0) inv (fun j => phi (nth j A dflt)) i.
Proof.
  intros HM LA Lw HP Hsub Hscale. unfold leibniz_loop.
  edestruct (for_up_inv (fun n (ds : list X) => length ds = n_coeffs nd /\
    forall i, i < n -> P (nth i ds dflt) /\
      forall phi, Phi phi -> phi (nth i ds dflt) =
        leib wbinom nd (fun j => nth j w s0) inv (fun j => phi (nth j A dflt)) i)) as (ds & E & HL & HN).
  3:{ rewrite E. exists ds. auto. }
  - rewrite repeat_length. split; auto. intros; lia.
  - intros i ds Hi (HL & HN). cbv beta. rewrite local_ids_ok. cbn [bind].
    rewrite (get_ok dflt) by lia. cbn [bind]. rewrite set_ok by lia. cbn [bind].
    set (W := fun j => nth j w s0). set (AA := fun (phi : X -> V) j => phi (nth j A dflt)).
    edestruct (for_up_inv (fun m (ds' : list X) => length ds' = n_coeffs nd /\
      (forall j, j <> i -> nth j ds' dflt = nth j ds dflt) /\ P (nth i ds' dflt) /\
      forall phi, Phi phi -> phi (nth i ds' dflt) =
        vsub (AA phi i) (vsum (m - 1) (fun j => lterm wbinom nd W (leib wbinom nd W inv (AA phi)) i (S j)))))
      as (ds' & E & HL' & HO & HPi & HI).
    3:{ rewrite E. cbn [bind]. rewrite (get_ok dflt) by lia. cbn [bind].
        destruct (Hscale _ HPi) as (z & Ez & Pz & Hz). rewrite Ez. cbn [bind]. rewrite set_ok by lia.
        eexists. split; [reflexivity|]. rewrite length_upd. split; auto. intros j Hj. rewrite nth_upd by lia.
        destruct (Nat.eqb_spec j i) as [->|Hne].
        - split; auto. intros phi Hphi. rewrite Hz, HI by auto. rewrite leib_eq. f_equal.
          replace (1 + i - 1) with i by lia. reflexivity.
        - rewrite HO by auto. apply HN. lia. }
    + rewrite length_upd. split; auto. split; [intros; apply nth_upd_other; auto|].
      rewrite nth_upd_same by lia. split; [eapply Forall_forall in HP; eauto; apply nth_In; lia|].
      intros phi Hphi. cbn [Nat.sub vsum]. unfold AA. vring.
    + intros j ds' Hj (HL' & HO & HPi & HI). cbv beta. rewrite local_ids_ok. cbn [bind].
      rewrite <- (length_index_of nd i), is_not_subset_ok by now rewrite !length_index_of. cbn [bind].
      assert (EJ : S j - 1 = S (j - 1)) by lia. assert (EJ' : S (j - 1) = j) by lia.
      destruct (subset (index_of nd i) (index_of nd j)) eqn:ES; cbn [negb].
      * assert (HV : valid_index (index_of nd i) (index_of nd j))
          by (apply subset_valid; auto; now rewrite !length_index_of).
        rewrite binom_product_ok; auto.
        2:{ apply Forall_forall. intros x Hx. destruct (In_nth _ _ 0 Hx) as (k & Hk & <-).
            rewrite length_index_of in Hk.
            pose proof (valid_nth_le _ _ k (index_of_valid nd i)).
            eapply Forall_forall in HM; [|apply (nth_In _ 0 Hk)]. simpl in *. lia. }
        cbn [bind]. rewrite (get_ok s0) by lia. cbn [bind]. rewrite (get_ok dflt) by lia. cbn [bind].
        rewrite (get_ok dflt) by lia. cbn [bind].
        destruct (HN (i - j)) as (HPy & HPhi); [lia|].
        destruct (Hsub (nth i ds' dflt) (smul (sofN (wbinom (index_of nd i) (index_of nd j))) (nth j w s0))
          (nth (i - j) ds' dflt)) as (z & Ez & Pz & Hz); auto.
        { rewrite HO by lia. auto. }
        rewrite Ez. cbn [bind]. rewrite set_ok by lia. eexists. split; [reflexivity|].
        rewrite length_upd. split; auto. split; [intros; rewrite nth_upd_other by auto; auto|].
        rewrite nth_upd_same by lia. split; auto. intros phi Hphi. rewrite Hz, HI, HO by (auto; lia).
        rewrite HPhi by auto. rewrite EJ. cbn [vsum]. rewrite EJ'. unfold lterm at 3. rewrite ES.
        fold (AA phi) W. change (W j) with (nth j w s0). vring.
      * eexists. split; [reflexivity|]. split; auto. split; auto. split; auto. intros phi Hphi.
        rewrite HI by auto. rewrite EJ. cbn [vsum]. rewrite EJ'. unfold lterm at 3. rewrite ES. vring.
Qed.
End Rec.
