(** Splitting a spline along one direction. *)
From Coq Require Import Arith Lia List ZArith NArith Bool Ring Field.
From Verif Require Import Prelude Scalar Spec SpecSpline Sums Order Coord ModelBasis ModelSpline
  ProofIndex ProofBasis ProofEval ProofElevate ProofUnique ProofArith ProofMul.
Import ListNotations.
Local Open Scope nat_scope.

Lemma idx_inj off p a j m a' j' m' : a < off -> a' < off -> j <= p -> j' <= p ->
  a + off * (j + (p + 1) * m) = a' + off * (j' + (p + 1) * m') -> a = a' /\ j = j' /\ m = m'.
Proof.
  intros Ha Ha' Hj Hj' E.
  assert (E1 : a = a').
  { assert (H : (a + (j + (p + 1) * m) * off) mod off = (a' + (j' + (p + 1) * m') * off) mod off) by (f_equal; lia).
    rewrite !Nat.mod_add, !Nat.mod_small in H by lia. auto. }
  subst a'. assert (E2 : j + (p + 1) * m = j' + (p + 1) * m') by nia.
  assert (E3 : j = j').
  { assert (H : (j + m * (p + 1)) mod (p + 1) = (j' + m' * (p + 1)) mod (p + 1)) by (f_equal; lia).
    rewrite !Nat.mod_add, !Nat.mod_small in H by lia. auto. }
  subst j'. split; auto. split; auto. nia.
Qed.

Section Split.
Context {T V : Type} {o : SOps T} {ov : VOps T V} {F : SField T} {M : VMod T V}.
Add Field Tfield : (@sf_th T o F).
Add Ring Ering : (@ext_ring T V o ov F M).
Ltac vring := to_ext; ring.

Lemma split_slice (x : T) p off start (c1 c2 : list V) :
  0 < off -> start + p * off < length c1 -> length c2 = length c1 ->
  let f := fun j => nth (start + j * off) c1 v0 in
  nth (start + p * off) c2 v0 = f p ->
  exists c1' c2',
  for_up 1 p (fun i '(c1, c2) =>
      do c1 <- for_down (p + 1 - i) (fun k c1 =>
        let j := k + i in
        do a <- get c1 (start + (j - 1) * off);
        do b <- get c1 (start + j * off);
        set c1 (start + j * off) (vadd (vscale (ssub s1 x) a) (vscale x b))) c1;
      do x <- get c1 (start + p * off);
      do c2 <- set c2 (start + (p - i) * off) x;
      Ok (c1, c2)) (c1, c2) = Ok (c1', c2') /\
  length c1' = length c1 /\ length c2' = length c1 /\
  (forall j, j <= p -> nth (start + j * off) c1' v0 = dcas x f j 0) /\
  (forall j, j <= p -> nth (start + j * off) c2' v0 = dcas x f (p - j) j) /\
  (forall k, (forall j, j <= p -> k <> start + j * off) -> nth k c1' v0 = nth k c1 v0 /\ nth k c2' v0 = nth k c2 v0).
Proof.
  intros Hoff Hlen HL12 f Hp.
  edestruct (for_up_inv (fun i '((d1, d2) : list V * list V) => length d1 = length c1 /\ length d2 = length c1 /\
    (forall j, j <= p -> nth (start + j * off) d1 v0 = dcas x f (min j (i - 1)) (j - (i - 1))) /\
    (forall j, j <= p -> p - j < i -> nth (start + j * off) d2 v0 = dcas x f (p - j) j) /\
    (forall k, (forall j, j <= p -> k <> start + j * off) -> nth k d1 v0 = nth k c1 v0 /\ nth k d2 v0 = nth k c2 v0)))
    as ([d1 d2] & E & L1 & L2 & N1 & N2 & NO).
  3:{ exists d1, d2. split; [exact E|]. split; [auto|]. split; [auto|]. split; [|split; [|auto]].
      - intros j Hj. rewrite N1 by auto. replace (min j (1 + p - 1)) with j by lia. f_equal. lia.
      - intros j Hj. apply N2; lia. }
  - split; [auto|]. split; [auto|]. split; [|split; [|auto]].
    + intros j Hj. rewrite Nat.sub_diag, Nat.min_0_r, Nat.sub_0_r, dcas_0. reflexivity.
    + intros j Hj Hi. replace j with p by lia. rewrite Nat.sub_diag, dcas_0. auto.
  - intros i [d1 d2] Hi (L1 & L2 & N1 & N2 & NO).
    edestruct (for_down_inv (fun k (e1 : list V) => length e1 = length c1 /\
      (forall j, j <= p -> nth (start + j * off) e1 v0 =
         dcas x f (min j (if k + i <=? j then i else i - 1)) (j - (if k + i <=? j then i else i - 1))) /\
      (forall k, (forall j, j <= p -> k <> start + j * off) -> nth k e1 v0 = nth k c1 v0)))
      as (e1 & E & Le & Ne & NOe).
    3:{ rewrite E. cbn [bind]. rewrite (get_ok v0) by lia. cbn [bind].
        rewrite set_ok by nia. cbn [bind]. eexists. split; [reflexivity|].
        split; [auto|]. split; [now rewrite length_upd|]. split; [|split].
        - intros j Hj. rewrite Ne by auto. destruct (Nat.leb_spec (0 + i) j); [do 2 f_equal; lia|].
          replace (min j (i - 1)) with (min j (S i - 1)) by lia.
          replace (j - (i - 1)) with (j - (S i - 1)) by lia. reflexivity.
        - intros j Hj Hji. rewrite nth_upd by nia.
          destruct (Nat.eqb_spec (start + j * off) (start + (p - i) * off)) as [Ej|Ej].
          + assert (j = p - i) by nia. subst j. rewrite Ne by lia.
            rewrite (proj2 (Nat.leb_le (0 + i) p)) by lia.
            replace (min p i) with (p - (p - i)) by lia. reflexivity.
          + apply N2; auto. destruct (Nat.eq_dec j (p - i)) as [->|]; [congruence|lia].
        - intros k Hk. split; [apply NOe; auto|]. rewrite nth_upd_other by (apply Hk; lia).
          apply NO; auto. }
    + split; [auto|]. split; [|intros; apply NO; auto]. intros j Hj. rewrite N1 by auto.
      rewrite (proj2 (Nat.leb_gt (p + 1 - i + i) j)) by lia. reflexivity.
    + intros k e1 Hk (Le & Ne & NOe). cbv zeta.
      rewrite (get_ok v0) by nia. cbn [bind]. rewrite (get_ok v0) by nia. cbn [bind].
      rewrite set_ok by nia. eexists. split; [reflexivity|]. rewrite length_upd. split; [auto|]. split.
      * intros j Hj. rewrite nth_upd by nia.
        destruct (Nat.eqb_spec (start + j * off) (start + (k + i) * off)) as [Ej|Ej].
        -- assert (j = k + i) by nia. subst j. rewrite !Ne by lia.
           rewrite (proj2 (Nat.leb_gt (S k + i) (k + i - 1))) by lia.
           rewrite (proj2 (Nat.leb_gt (S k + i) (k + i))) by lia.
           rewrite Nat.leb_refl.
           replace (min (k + i) i) with (S (i - 1)) by lia.
           replace (min (k + i - 1) (i - 1)) with (i - 1) by lia.
           replace (min (k + i) (i - 1)) with (i - 1) by lia.
           rewrite dcas_S. do 2 f_equal; f_equal; lia.
        -- rewrite Ne by auto. assert (j <> k + i) by (intros ->; congruence).
           replace (S k + i <=? j) with (k + i <=? j); auto.
           apply eq_true_iff_eq. rewrite !Nat.leb_le. lia.
      * intros q Hq. rewrite nth_upd_other by (apply Hq; lia). auto.
Qed.

(** Coefficients of the two parts. *)
Lemma SplitAtPosition_ok (s : spline V) (x : T) k :
  wf s -> k < length (degrees s) -> slt s0 x -> slt x s1 ->
  let p := nth k (degrees s) 0 in
  let off := n_coeffs (firstn k (degrees s)) in
  let cnt := n_coeffs (skipn (S k) (degrees s)) in
  let f a m := fun j => nth (a + off * (j + (p + 1) * m)) (control_points s) v0 in
  exists c1 c2, SplitAtPosition s x k = Ok [with_cps s c1; with_cps s c2] /\
    length c1 = length (control_points s) /\ length c2 = length (control_points s) /\
    forall a j m, a < off -> j <= p -> m < cnt ->
      nth (a + off * (j + (p + 1) * m)) c1 v0 = dcas x (f a m) j 0 /\
      nth (a + off * (j + (p + 1) * m)) c2 v0 = dcas x (f a m) (p - j) j.
Proof.
  intros Hw Hk H0 H1 p off cnt f. pose proof Hw as (Hd & Hn & Ho & Hc). unfold SplitAtPosition.
  unfold slt in H0, H1. rewrite H0, H1. cbn [andb negb].
  rewrite (get_ok 0) by auto. cbn [bind]. rewrite Ho.
  rewrite (get_ok 0) by (rewrite length_offsets; auto). cbn [bind]. rewrite nth_offsets by auto.
  fold p off. cbv zeta.
  assert (Hoff : 0 < off) by apply n_coeffs_pos.
  assert (Etot : n_coeffs (degrees s) = off * (p + 1) * cnt).
  { rewrite (n_coeffs_split (degrees s) k), (skipn_cons_nth 0 (degrees s) k) by auto.
    rewrite n_coeffs_cons. fold p off cnt. lia. }
  assert (Ediv : number_of_control_points s / (p + 1) = off * cnt).
  { rewrite Hn, Etot. replace (off * (p + 1) * cnt) with (off * cnt * (p + 1)) by lia.
    apply Nat.div_mul. lia. }
  rewrite Ediv.
  set (c0 := control_points s) in *. rewrite Etot in Hc.
  assert (Hst : forall id, id / off * (off * (p + 1)) + id mod off = id mod off + off * (p + 1) * (id / off)) by lia.
  edestruct (for_up_inv (fun id '((d1, d2) : list V * list V) => length d1 = length c0 /\ length d2 = length c0 /\
    forall a j m, a < off -> j <= p -> m < cnt ->
      nth (a + off * (j + (p + 1) * m)) d1 v0 =
        (if a + off * m <? id then dcas x (f a m) j 0 else f a m j) /\
      nth (a + off * (j + (p + 1) * m)) d2 v0 =
        (if a + off * m <? id then dcas x (f a m) (p - j) j else f a m j)))
    as ([d1 d2] & E & L1 & L2 & HN).
  3:{ exists d1, d2. rewrite E. cbn [bind]. split; [reflexivity|]. split; [auto|]. split; [auto|].
      intros a j m Ha Hj Hm. destruct (HN a j m Ha Hj Hm) as (A & B).
      rewrite (proj2 (Nat.ltb_lt (a + off * m) (0 + off * cnt))) in A, B by nia. auto. }
  - split; [auto|]. split; [auto|]. intros a j m Ha Hj Hm.
    rewrite (proj2 (Nat.ltb_ge _ 0)) by lia. auto.
  - intros id [d1 d2] Hid (L1 & L2 & HN).
    set (a0 := id mod off). set (m0 := id / off).
    assert (Eid : id = a0 + off * m0) by (unfold a0, m0; rewrite Nat.add_comm; apply Nat.div_mod; lia).
    assert (Ha0 : a0 < off) by (apply Nat.mod_upper_bound; lia).
    assert (Hm0 : m0 < cnt) by nia.
    set (start := m0 * (off * (p + 1)) + a0).
    assert (Hpt : forall j, start + j * off = a0 + off * (j + (p + 1) * m0)) by (intros; unfold start; lia).
    assert (Hmb : off * (p + 1) * (m0 + 1) <= off * (p + 1) * cnt) by (apply Nat.mul_le_mono_l; lia).
    destruct (split_slice x p off start d1 d2) as (e1 & e2 & E & Le1 & Le2 & N1 & N2 & NO); auto.
    { rewrite L1, Hc. unfold start. nia. }
    { congruence. }
    { rewrite Hpt. destruct (HN a0 p m0 Ha0 (le_n p) Hm0) as (A & B).
      rewrite A, B, <- Eid, Nat.ltb_irrefl. auto. }
    assert (Ef : forall j, j <= p -> nth (start + j * off) d1 v0 = f a0 m0 j).
    { intros j Hj. rewrite Hpt. destruct (HN a0 j m0 Ha0 Hj Hm0) as (A & _).
      rewrite A, <- Eid, Nat.ltb_irrefl. auto. }
    assert (Edc : forall r j, j + r <= p -> dcas x (fun j => nth (start + j * off) d1 v0) r j = dcas x (f a0 m0) r j).
    { intros r j Hr. unfold dcas. apply vsum_ext. intros i Hi. f_equal. apply Ef. lia. }
    exists (e1, e2). split; [exact E|]. split; [congruence|]. split; [congruence|].
    intros a j m Ha Hj Hm.
    destruct (Nat.eq_dec (a + off * m) id) as [Ei|Ei].
    + assert (a = a0 /\ m = m0).
      { assert (Ex : a = a0).
        { unfold a0. rewrite <- Ei. rewrite Nat.mul_comm, Nat.mod_add, Nat.mod_small by lia. auto. }
        split; auto. nia. }
      destruct H as (-> & ->). rewrite (proj2 (Nat.ltb_lt _ _)) by lia.
      rewrite <- Hpt. rewrite N1, N2 by auto. rewrite !Edc by lia. auto.
    + destruct (NO (a + off * (j + (p + 1) * m))) as (A & B).
      { intros j' Hj' Hx. rewrite Hpt in Hx. destruct (idx_inj off p a j m a0 j' m0) as (-> & _ & ->); auto. }
      rewrite A, B. replace (a + off * m <? S id) with (a + off * m <? id); [apply HN; auto|].
      apply eq_true_iff_eq. rewrite !Nat.ltb_lt. lia.
Qed.

(** The two subdivision identities of the Bernstein basis. *)
Lemma spow_mul_l (a b : T) n : spow (smul a b) n = smul (spow a n) (spow b n).
Proof. apply spow_mul_base. Qed.

Lemma subdiv_first p j (x t : T) : j <= p ->
  ssum (S p) (fun i => smul (bernstein p i t) (if j <=? i then bernstein i j x else s0)) =
  bernstein p j (smul x t).
Proof.
  intros Hj. replace (S p) with (j + S (p - j)) by lia. rewrite ssum_app.
  rewrite ssum_zero. 2:{ intros i Hi. rewrite (proj2 (Nat.leb_gt j i)) by lia. ring. }
  transitivity (smul (smul (sofN (binom p j)) (spow (smul x t) j))
    (ssum (S (p - j)) (fun i => smul (smul (sofN (binom (p - j) i)) (spow (smul t (ssub s1 x)) i))
       (spow (ssub s1 t) (p - j - i))))).
  - rewrite <- ssum_scale. transitivity (ssum (S (p - j)) (fun i => smul (smul (sofN (binom p j)) (spow (smul x t) j))
      (smul (smul (sofN (binom (p - j) i)) (spow (smul t (ssub s1 x)) i)) (spow (ssub s1 t) (p - j - i)))));
      [|reflexivity].
    rewrite (ssum_ext _ (fun i => smul (bernstein p (j + i) t) _)
      (fun i => smul (smul (sofN (binom p j)) (spow (smul x t) j))
      (smul (smul (sofN (binom (p - j) i)) (spow (smul t (ssub s1 x)) i)) (spow (ssub s1 t) (p - j - i))))); [ring|].
    intros i Hi. rewrite (proj2 (Nat.leb_le j (j + i))) by lia. unfold bernstein.
    pose proof (f_equal (fun n => sofN n : T) (binom_trinomial p (j + i) j ltac:(lia) ltac:(lia))) as HT.
    cbv beta in HT. rewrite !sofN_mul in HT. replace (j + i - j) with i in * by lia.
    rewrite !spow_mul_l, spow_add. replace (p - (j + i)) with (p - j - i) by lia.
    transitivity (smul (smul (sofN (binom p (j + i))) (sofN (binom (j + i) j)))
      (smul (smul (spow t j) (spow t i)) (smul (spow (ssub s1 t) (p - j - i)) (smul (spow x j) (spow (ssub s1 x) i))))); [ring|].
    rewrite HT. ring.
  - rewrite <- binomial_theorem. unfold bernstein. do 2 f_equal. ring.
Qed.

Lemma subdiv_second p j (x t : T) : j <= p ->
  ssum (S p) (fun q => smul (bernstein p q t) (if q <=? j then bernstein (p - q) (j - q) x else s0)) =
  bernstein p j (sadd x (smul (ssub s1 x) t)).
Proof.
  intros Hj. replace (S p) with (S j + (p - j)) by lia. rewrite ssum_app.
  rewrite (ssum_zero (p - j)). 2:{ intros i Hi. rewrite (proj2 (Nat.leb_gt (S j + i) j)) by lia. ring. }
  transitivity (smul (smul (sofN (binom p j)) (smul (spow (ssub s1 x) (p - j)) (spow (ssub s1 t) (p - j))))
    (ssum (S j) (fun q => smul (smul (sofN (binom j q)) (spow t q)) (spow (smul x (ssub s1 t)) (j - q))))).
  - rewrite <- ssum_scale.
    rewrite (ssum_ext _ (fun q => smul (bernstein p q t) _)
      (fun q => smul (smul (sofN (binom p j)) (smul (spow (ssub s1 x) (p - j)) (spow (ssub s1 t) (p - j))))
      (smul (smul (sofN (binom j q)) (spow t q)) (spow (smul x (ssub s1 t)) (j - q))))); [ring|].
    intros q Hq. rewrite (proj2 (Nat.leb_le q j)) by lia. unfold bernstein.
    pose proof (f_equal (fun n => sofN n : T) (binom_trinomial p j q ltac:(lia) ltac:(lia))) as HT.
    cbv beta in HT. rewrite !sofN_mul in HT. replace (p - q - (j - q)) with (p - j) by lia.
    assert (EP : spow (ssub s1 t) (p - q) = smul (spow (ssub s1 t) (p - j)) (spow (ssub s1 t) (j - q)))
      by (rewrite <- spow_add; f_equal; lia).
    rewrite EP, !spow_mul_l.
    transitivity (smul (smul (sofN (binom p q)) (sofN (binom (p - q) (j - q))))
      (smul (spow t q) (smul (smul (spow (ssub s1 t) (p - j)) (spow (ssub s1 t) (j - q)))
         (smul (spow x (j - q)) (spow (ssub s1 x) (p - j)))))); [ring|].
    rewrite <- HT. ring.
  - rewrite <- binomial_theorem. rewrite <- spow_mul_l. unfold bernstein.
    replace (sadd t (smul x (ssub s1 t))) with (sadd x (smul (ssub s1 x) t)) by ring.
    replace (smul (ssub s1 x) (ssub s1 t)) with (ssub s1 (sadd x (smul (ssub s1 x) t))) by ring. ring.
Qed.

Lemma dcas_full1 (x : T) p (f : nat -> V) j : j <= p ->
  dcas x f j 0 = vsum (S p) (fun i => vscale (if i <=? j then bernstein j i x else s0) (f i)).
Proof.
  intros Hj. unfold dcas. replace (S p) with (S j + (p - j)) by lia. rewrite vsum_app.
  rewrite (vsum_zero (p - j)).
  2:{ intros i Hi. rewrite (proj2 (Nat.leb_gt (S j + i) j)) by lia. apply vscale_0_l. }
  rewrite vadd_0_r. apply vsum_ext. intros i Hi. rewrite (proj2 (Nat.leb_le i j)) by lia. auto.
Qed.
Lemma dcas_full2 (x : T) p (f : nat -> V) q : q <= p ->
  dcas x f (p - q) q = vsum (S p) (fun j => vscale (if q <=? j then bernstein (p - q) (j - q) x else s0) (f j)).
Proof.
  intros Hq. unfold dcas. replace (S p) with (q + S (p - q)) by lia. rewrite vsum_app.
  rewrite (vsum_zero q).
  2:{ intros i Hi. rewrite (proj2 (Nat.leb_gt q i)) by lia. apply vscale_0_l. }
  rewrite vm_0. apply vsum_ext. intros i Hi. rewrite (proj2 (Nat.leb_le q (q + i))) by lia.
  replace (q + i - q) with i by lia. auto.
Qed.

Lemma split_list {A} (d : A) l k : k < length l -> l = firstn k l ++ nth k l d :: skipn (S k) l.
Proof. intros H. rewrite <- skipn_cons_nth by auto. symmetry. apply firstn_skipn. Qed.

Lemma upd_split' {A} (l : list A) k x : k < length l -> upd_list l k x = firstn k l ++ x :: skipn (S k) l.
Proof. apply upd_split. Qed.

Theorem Split_values (s : spline V) (x : T) k :
  wf s -> k < length (degrees s) -> slt s0 x -> slt x s1 ->
  exists a b, SplitAtPosition s x k = Ok [a; b] /\ wf a /\ wf b /\
    degrees a = degrees s /\ degrees b = degrees s /\
    forall xs : list T, length xs = length (degrees s) ->
      value_at a xs = value_at s (upd_list xs k (smul x (nth k xs s0))) /\
      value_at b xs = value_at s (upd_list xs k (sadd x (smul (ssub s1 x) (nth k xs s0)))).
Proof.
  intros Hw Hk H0 H1. destruct (SplitAtPosition_ok s x k Hw Hk H0 H1) as (c1 & c2 & E & L1 & L2 & HN).
  eexists _, _. split; [exact E|]. split; [apply wf_upd; auto|]. split; [apply wf_upd; auto|].
  split; [reflexivity|]. split; [reflexivity|]. intros xs HX.
  set (p := nth k (degrees s) 0) in *. set (t := nth k xs s0).
  unfold value_at. cbn [with_cps degrees control_points].
  rewrite !upd_split' by lia.
  assert (Exs : xs = firstn k xs ++ t :: skipn (S k) xs) by (apply split_list; lia).
  assert (Ed : degrees s = firstn k (degrees s) ++ p :: skipn (S k) (degrees s)) by (apply split_list; auto).
  set (pre := firstn k (degrees s)) in *. set (post := skipn (S k) (degrees s)) in *.
  assert (HLp : length (firstn k xs) = length pre) by (unfold pre; rewrite !firstn_length; lia).
  set (xp := firstn k xs) in *. set (xq := skipn (S k) xs) in *. rewrite Exs, Ed. clear Exs Ed.
  split.
  - apply (bezier_dirop pre p p post xp (smul x t) t xq _ _
      (fun i j => if j <=? i then bernstein i j x else s0)); auto.
    + intros a i m Ha Hi Hm. rewrite <- (Nat.add_1_r p) at 1.
      destruct (HN a i m Ha Hi Hm) as (-> & _). rewrite Nat.add_1_r. apply (dcas_full1 x p); auto.
    + intros j Hj. apply subdiv_first; auto.
  - apply (bezier_dirop pre p p post xp (sadd x (smul (ssub s1 x) t)) t xq _ _
      (fun i j => if i <=? j then bernstein (p - i) (j - i) x else s0)); auto.
    + intros a i m Ha Hi Hm. rewrite <- (Nat.add_1_r p) at 1.
      destruct (HN a i m Ha Hi Hm) as (_ & ->). rewrite Nat.add_1_r. apply (dcas_full2 x p); auto.
    + intros j Hj. apply subdiv_second; auto.
Qed.

Lemma Split_throw (s : spline V) (x : T) k : ~ (slt s0 x /\ slt x s1) -> SplitAtPosition s x k = Throw.
Proof.
  intros H. unfold SplitAtPosition. unfold slt in H.
  destruct (sltb s0 x); destruct (sltb x s1); cbn [andb negb]; auto. exfalso; auto.
Qed.

Lemma upd_upd (xs : list T) k a b : upd_list (upd_list xs k a) k b = upd_list xs k b.
Proof. revert k; induction xs; intros [|k]; simpl; auto. f_equal; auto. Qed.

Context {O : SOrder T}.

(** Relative position of the next plane in the remaining part. *)
Lemma rel_pos (pm pi : T) : slt pm s1 ->
  ssub s1 pm <> s0 /\
  (slt s0 (sdiv (ssub pi pm) (ssub s1 pm)) <-> slt pm pi) /\
  (slt (sdiv (ssub pi pm) (ssub s1 pm)) s1 <-> slt pi s1).
Proof.
  intros H. pose proof (proj1 (slt_sub pm s1) H) as HP.
  assert (HN : ssub s1 pm <> s0) by (intros E; rewrite E in HP; apply (so_irrefl _ HP)).
  split; auto. split.
  - rewrite (slt_sub pm pi). split; intros A.
    + replace (ssub pi pm) with (smul (sdiv (ssub pi pm) (ssub s1 pm)) (ssub s1 pm)) by (field; auto).
      apply so_mul; auto.
    + apply slt_div; auto.
  - rewrite (slt_sub _ s1), (slt_sub pi s1). split; intros A.
    + replace (ssub s1 pi) with (smul (ssub s1 (sdiv (ssub pi pm) (ssub s1 pm))) (ssub s1 pm)) by (field; auto).
      apply so_mul; auto.
    + replace (ssub s1 (sdiv (ssub pi pm) (ssub s1 pm))) with (sdiv (ssub s1 pi) (ssub s1 pm)) by (field; auto).
      apply slt_div; auto.
Qed.

Definition split_step (planes : list T) (k : nat) (i : nat) (st : list (spline V) * list (spline V)) :=
  let '(out, split) := st in
  do pi <- get planes i;
  do pm <- get planes (i - 1);
  do rel <- divS (ssub pi pm) (ssub s1 pm);
  do rest <- get split 1;
  do split <- SplitAtPosition rest rel k;
  do x <- get split 0;
  Ok (out ++ [x], split).

(** [b] is the part of [s] with parameter [k] in [[l, r]]. *)
Definition piece (s b : spline V) (k : nat) (l r : T) : Prop :=
  wf b /\ degrees b = degrees s /\ forall xs : list T, length xs = length (degrees s) ->
    value_at b xs = value_at s (upd_list xs k (sadd l (smul (ssub r l) (nth k xs s0)))).

Lemma piece_split (s b : spline V) k l m : k < length (degrees s) -> piece s b k l s1 ->
  slt l m -> slt m s1 ->
  exists b1 b2, SplitAtPosition b (sdiv (ssub m l) (ssub s1 l)) k = Ok [b1; b2] /\
    piece s b1 k l m /\ piece s b2 k m s1.
Proof.
  intros Hk (Hw & Hd & HV) Hlm Hm. destruct (rel_pos l m (so_trans _ _ _ Hlm Hm)) as (HN & R0 & R1).
  destruct (Split_values b (sdiv (ssub m l) (ssub s1 l)) k) as (b1 & b2 & E & W1 & W2 & D1 & D2 & HV2); auto.
  { congruence. } { apply R0; auto. } { apply R1; auto. }
  exists b1, b2. split; [auto|]. split.
  - split; [auto|]. split; [congruence|]. intros xs HX.
    destruct (HV2 xs) as (-> & _); [congruence|].
    rewrite HV by (rewrite length_upd; auto). rewrite upd_upd, nth_upd by lia. rewrite Nat.eqb_refl.
    do 2 f_equal. field. auto.
  - split; [auto|]. split; [congruence|]. intros xs HX.
    destruct (HV2 xs) as (_ & ->); [congruence|].
    rewrite HV by (rewrite length_upd; auto). rewrite upd_upd, nth_upd by lia. rewrite Nat.eqb_refl.
    do 2 f_equal. field. auto.
Qed.

Lemma split_loop_ok (s : spline V) planes k : k < length (degrees s) ->
  forall n lo out a b, 1 <= lo -> lo + n = length planes ->
  piece s b k (nth (lo - 1) planes s0) s1 ->
  (forall i, lo <= i < lo + n -> slt (nth (i - 1) planes s0) (nth i planes s0) /\ slt (nth i planes s0) s1) ->
  exists parts a' b', for_up lo n (split_step planes k) (out, [a; b]) = Ok (out ++ parts, [a'; b']) /\
    length parts = n /\ piece s b' k (nth (lo + n - 1) planes s0) s1 /\
    forall i, i < n -> piece s (nth i parts s) k (nth (lo + i - 1) planes s0) (nth (lo + i) planes s0).
Proof.
  intros Hk. induction n; intros lo out a b H1 Hlen Hb Hp.
  - exists [], a, b. rewrite app_nil_r, Nat.add_0_r. split; [reflexivity|]. split; auto. split; auto. intros; lia.
  - destruct (Hp lo ltac:(lia)) as (A1 & A2).
    destruct (piece_split s b k _ _ Hk Hb A1 A2) as (b1 & b2 & E & P1 & P2).
    destruct (IHn (S lo) (out ++ [b1]) b1 b2) as (parts & a' & b' & E2 & L & PB & PP); try lia.
    { replace (S lo - 1) with lo by lia. auto. }
    { intros i Hi. apply Hp. lia. }
    exists (b1 :: parts), a', b'. split; [|split; [simpl; lia|split]].
    + cbn [for_up]. unfold split_step at 1. rewrite !(get_ok s0) by lia. cbn [bind].
      rewrite divS_ok by (apply (rel_pos _ s0); exact (so_trans _ _ _ A1 A2)). cbn [bind get nth_error].
      rewrite E. cbn [bind get nth_error]. rewrite E2. rewrite <- app_assoc. reflexivity.
    + replace (lo + S n - 1) with (S lo + n - 1) by lia. auto.
    + intros [|i] Hi; [cbn [nth]; rewrite Nat.add_0_r; auto|]. cbn [nth].
      replace (lo + S i - 1) with (S lo + i - 1) by lia. replace (lo + S i) with (S lo + i) by lia.
      apply PP. lia.
Qed.

Lemma split_loop_throw (s : spline V) planes k : k < length (degrees s) ->
  forall n lo out a b, 1 <= lo -> lo + n = length planes ->
  piece s b k (nth (lo - 1) planes s0) s1 -> slt (nth (lo - 1) planes s0) s1 ->
  (exists i, lo <= i < lo + n /\ ~ (slt (nth (i - 1) planes s0) (nth i planes s0) /\ slt (nth i planes s0) s1)) ->
  for_up lo n (split_step planes k) (out, [a; b]) = Throw.
Proof.
  intros Hk. induction n; intros lo out a b H1 Hlen Hb HL (i & Hi & Hbad); [lia|].
  cbn [for_up]. unfold split_step at 1. rewrite !(get_ok s0) by lia. cbn [bind].
  destruct (rel_pos (nth (lo - 1) planes s0) (nth lo planes s0) HL) as (HN & R0 & R1).
  rewrite divS_ok by auto. cbn [bind get nth_error].
  destruct (sltb (nth (lo - 1) planes s0) (nth lo planes s0)) eqn:E1.
  2:{ rewrite Split_throw; auto. intros (A & _). apply R0 in A. unfold slt in A. congruence. }
  destruct (sltb (nth lo planes s0) s1) eqn:E2.
  2:{ rewrite Split_throw; auto. intros (_ & A). apply R1 in A. unfold slt in A. congruence. }
  destruct (piece_split s b k _ _ Hk Hb E1 E2) as (b1 & b2 & E & P1 & P2).
  rewrite E. cbn [bind get nth_error].
  apply IHn; try lia.
  - replace (S lo - 1) with lo by lia. auto.
  - replace (S lo - 1) with lo by lia. auto.
  - exists i. split; auto. destruct (Nat.eq_dec i lo) as [->|]; [|lia]. exfalso. apply Hbad. auto.
Qed.

Lemma is_sorted_lt planes :
  (forall i, 1 <= i < length planes -> slt (nth (i - 1) planes s0) (nth i planes s0)) ->
  is_sorted planes = true.
Proof.
  induction planes as [|a l IH]; intros H; auto. destruct l as [|b l]; auto. cbn [is_sorted].
  apply andb_true_iff. split.
  - apply negb_true_iff. specialize (H 1 ltac:(simpl; lia)). simpl in H. apply slt_sle. exact H.
  - apply IH. intros i Hi. specialize (H (S i) ltac:(simpl in *; lia)).
    replace (S i - 1) with (S (i - 1)) in H by lia. exact H.
Qed.

Lemma piece_refl s k : wf s -> k < length (degrees s) -> piece s s k s0 s1.
Proof.
  intros Hw Hk. split; auto. split; auto. intros xs HX. f_equal.
  apply (list_ext s0); [now rewrite length_upd|]. intros i Hi. rewrite nth_upd by lia.
  destruct (Nat.eqb_spec i k) as [->|]; auto. ring.
Qed.
End Split.
