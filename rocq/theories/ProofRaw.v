(** What OrderElevateAlongParametricDimension, SplitAtPosition and DerivativeWRT compute, operation by operation,
    whatever the arithmetic. *)
From Coq Require Import Arith Lia List ZArith NArith Bool.
From Verif Require Import Prelude Scalar Spec SpecSpline Sums ModelBasis ModelSpline ProofIndex ProofBasis ProofEval
  ProofElevate ProofSplit ProofDeriv ProofDerivSpline ProofCasteljau.
Import ListNotations.
Local Open Scope nat_scope.

Section Raw.
Context {T V : Type} {o : SOps T} {ov : VOps T V}.

(** New coefficient [i] of a line of coefficients [f 0 .. f p]. *)
Definition relev (p : nat) (f : nat -> V) (i : nat) : V :=
  if i =? 0 then f 0 else if i =? p + 1 then f p else
  let fac := smul (sofnat i) (sdiv s1 (sofnat (p + 1))) in
  vadd (vscale (ssub s1 fac) (f i)) (vscale fac (f (i - 1))).
Lemma relev_0 p f : relev p f 0 = f 0.
Proof. reflexivity. Qed.
Lemma relev_last p f : relev p f (p + 1) = f p.
Proof. unfold relev. rewrite (proj2 (Nat.eqb_neq (p + 1) 0)) by lia. now rewrite Nat.eqb_refl. Qed.
Lemma relev_mid p f i : 1 <= i <= p -> relev p f i =
  let fac := smul (sofnat i) (sdiv s1 (sofnat (p + 1))) in
  vadd (vscale (ssub s1 fac) (f i)) (vscale fac (f (i - 1))).
Proof. intros H. unfold relev. rewrite (proj2 (Nat.eqb_neq i 0)), (proj2 (Nat.eqb_neq i (p + 1))) by lia. reflexivity. Qed.

(** The elevated control points. *)
Definition relev_points (pre : nat) (p : nat) (n' : nat) (c : list V) : list V :=
  map (fun q => relev p (fun j => nth (q mod pre + pre * (j + S p * ((q / pre) / (p + 2)))) c v0)
                  ((q / pre) mod (p + 2))) (seq 0 n').

Lemma nth_relev_points off p n' c a i m :
  a < off -> i <= p + 1 -> a + off * (i + (p + 2) * m) < n' ->
  nth (a + off * (i + (p + 2) * m)) (relev_points off p n' c) v0 =
  relev p (fun j => nth (a + off * (j + S p * m)) c v0) i.
Proof.
  intros Ha Hi Hn. unfold relev_points. rewrite nth_map_seq by auto.
  destruct (decompose a off i (p + 2) m) as (-> & -> & ->); auto. lia.
Qed.

Section Loops.
(** All quantities of the elevation loops, without wrap-around. *)
Variables (off p cnt : nat) (c0 : list V).
Hypothesis Hoff : 0 < off.
Hypothesis HL0 : length c0 = off * (p + 1) * cnt.
Let n' := off * (p + 2) * cnt.
Hypothesis Hsmall : (Z.of_nat n' < 2 ^ 31)%Z.

Let tgt := relev_points off p n' c0.

Definition rInv (g : nat) (st : list V * Z) : Prop :=
  length (fst st) = n' /\ snd st = u32 (Z.of_nat g - 1) /\
  (forall k, g <= k < n' -> nth k (fst st) v0 = nth k tgt v0) /\
  (forall k, k < g -> k < length c0 -> nth k (fst st) v0 = nth k c0 v0).

Lemma rInv_write g c gi x :
  rInv (S g) (c, gi) -> g < n' -> x = nth g tgt v0 ->
  set c (Z.to_nat gi) x = Ok (upd_list c g x) /\
  rInv g (upd_list c g x, u32 (gi - 1)).
Proof.
  intros (HL & Hg & HN & HO) Hlt Hx. cbn [fst snd] in *.
  assert (Eg : gi = Z.of_nat g).
  { rewrite Hg. rewrite u32_small; lia. }
  rewrite Eg, Nat2Z.id. split.
  - apply set_ok. lia.
  - split; [simpl; rewrite length_upd; auto|]. split; [reflexivity|]. split; simpl.
    + intros k Hk. rewrite nth_upd by lia.
      destruct (Nat.eqb_spec k g) as [->|]; auto. apply HN. lia.
    + intros k Hk Hk'. rewrite nth_upd_other by lia. apply HO; lia.
Qed.

(** One inner loop: writes the layer [i] of group [m]. *)
Lemma rlayer_loop (body : nat -> list V * Z -> res (list V * Z)) m i st :
  m < cnt -> i <= p + 1 ->
  rInv (off * (S i + (p + 2) * m)) st ->
  (forall a c gi, a < off ->
     rInv (S (a + off * (i + (p + 2) * m))) (c, gi) ->
     body a (c, gi) =
       do c' <- set c (Z.to_nat gi) (nth (a + off * (i + (p + 2) * m)) tgt v0);
       Ok (c', u32 (gi - 1))) ->
  exists st', for_down off body st = Ok st' /\ rInv (off * (i + (p + 2) * m)) st'.
Proof.
  intros Hm Hi HI Hb.
  edestruct (for_down_inv (fun a st => rInv (a + off * (i + (p + 2) * m)) st) body off st)
    as (st' & E & H).
  3:{ exists st'. split; [exact E|exact H]. }
  - replace (off + off * (i + (p + 2) * m)) with (off * (S i + (p + 2) * m)) by lia. exact HI.
  - intros a [c gi] Ha HIa. rewrite Hb by auto.
    destruct (rInv_write (a + off * (i + (p + 2) * m)) c gi
                (nth (a + off * (i + (p + 2) * m)) tgt v0)) as (E & HI'); auto.
    + unfold n'. assert (S m <= cnt) by lia.
      assert (off * (p + 2) * S m <= off * (p + 2) * cnt) by (apply Nat.mul_le_mono_l; auto). nia.
    + rewrite E. cbn [bind]. eexists; split; [reflexivity|exact HI'].
Qed.

Lemma rindex_small m a i :
  m < cnt -> a < off -> i <= p -> a + off * (i + (p + 1) * m) < length c0.
Proof.
  intros. rewrite HL0. assert (S m <= cnt) by lia.
  assert (off * (p + 1) * S m <= off * (p + 1) * cnt) by (apply Nat.mul_le_mono_l; auto). nia.
Qed.

Lemma rgroup_index m a :
  m < cnt -> a < off ->
  u32 (u32 (Z.of_nat m * u32 (Z.of_nat off * (Z.of_nat p + 1))) + Z.of_nat a) =
  Z.of_nat (a + off * ((p + 1) * m)).
Proof.
  intros Hm Ha.
  pose proof (rindex_small m a 0 Hm Ha ltac:(lia)) as H1. rewrite Nat.add_0_l in H1.
  assert (HLs : length c0 <= n').
  { rewrite HL0. unfold n'. apply Nat.mul_le_mono_r. apply Nat.mul_le_mono_l. lia. }
  assert (H2 : off * (p + 1) <= n') by (unfold n'; nia).
  rewrite (u32_small (Z.of_nat off * (Z.of_nat p + 1))) by nia.
  rewrite (u32_small (Z.of_nat m * _)) by nia.
  rewrite u32_small by nia. nia.
Qed.

End Loops.

Theorem OrderElevate_raw (s : spline V) k :
  wf s -> k < length (degrees s) -> seqb (sofnat (nth k (degrees s) 0 + 1)) s0 = false ->
  let p := nth k (degrees s) 0 in
  let degs' := upd_list (degrees s) k (p + 1) in
  (Z.of_nat (n_coeffs degs') < 2 ^ 31)%Z ->
  OrderElevate s k =
  Ok (mk degs' (relev_points (n_coeffs (firstn k (degrees s))) p (n_coeffs degs') (control_points s))).
Proof.
  intros Hw Hk Hz p degs' Hsm. pose proof Hw as (Hd & Hn & Ho & Hc).
  unfold OrderElevate. set (degs := degrees s) in *.
  rewrite (get_ok 0 degs) by auto. cbn [bind]. rewrite Ho.
  rewrite (get_ok 0) by (rewrite length_offsets; auto). cbn [bind].
  rewrite nth_offsets by auto. fold p.
  set (off := n_coeffs (firstn k degs)) in *.
  set (cnt := n_coeffs (skipn (S k) degs)).
  assert (Hoff : 0 < off) by apply n_coeffs_pos.
  assert (Hcnt : 0 < cnt) by apply n_coeffs_pos.
  assert (Etot : n_coeffs degs = off * (p + 1) * cnt).
  { rewrite (n_coeffs_split degs k), (skipn_cons_nth 0 degs k) by auto.
    rewrite n_coeffs_cons. fold p off cnt. lia. }
  assert (Etot' : n_coeffs degs' = off * (p + 2) * cnt).
  { unfold degs'. rewrite upd_split by auto.
    rewrite n_coeffs_app, n_coeffs_cons. fold off cnt. lia. }
  assert (Ediv : number_of_control_points s / (p + 1) = off * cnt).
  { rewrite Hn, Etot. replace (off * (p + 1) * cnt) with (off * cnt * (p + 1)) by lia.
    apply Nat.div_mul. lia. }
  cbv zeta. rewrite Ediv.
  replace (off * cnt * (p + 2)) with (off * (p + 2) * cnt) by lia.
  set (n' := off * (p + 2) * cnt) in *.
  rewrite Etot' in Hsm.
  assert (Hb1 : off * cnt <= n') by (subst n'; nia).
  assert (Hb2 : off <= n') by (subst n'; nia).
  assert (Hb3 : cnt <= n') by (subst n'; nia).
  rewrite (i32_small (Z.of_nat off)) by lia.
  rewrite (proj2 (Z.eqb_neq (Z.of_nat off) 0)) by lia. cbn [bind].
  rewrite set_ok by auto. cbn [bind]. fold degs'.
  unfold divS. fold degs p in Hz. rewrite Hz. cbn [bind].
  rewrite (u32_small (Z.of_nat (off * cnt))) by lia.
  rewrite (u32_small (Z.of_nat off)) by lia.
  replace (Z.of_nat (off * cnt) / Z.of_nat off)%Z with (Z.of_nat cnt).
  2:{ rewrite Nat2Z.inj_mul, Z.mul_comm, Z.div_mul; lia. }
  rewrite (i32_small (Z.of_nat cnt)) by lia. rewrite !Nat2Z.id.
  assert (HL0 : length (control_points s) = off * (p + 1) * cnt) by (rewrite Hc; auto).
  set (c0 := control_points s) in *.
  assert (HLs : length c0 <= n') by (rewrite HL0; subst n'; apply Nat.mul_le_mono_r, Nat.mul_le_mono_l; lia).
  edestruct (for_down_inv (fun m st => rInv off p cnt c0 (off * ((p + 2) * m)) st))
    as ([c gi] & E & HI).
  3:{ rewrite E. cbn [bind]. rewrite UpdateIndexOffsets_ok.
      2:{ unfold degs'. destruct degs; simpl; [congruence|]. destruct k; simpl; congruence. }
      cbn [bind]. rewrite Etot'. fold n'. unfold mk. rewrite Etot'. fold n'.
      f_equal. f_equal. destruct HI as (HL & _ & HN & _). simpl in *.
      apply (list_ext v0).
      - unfold relev_points. rewrite map_length, seq_length. exact HL.
      - intros i Hi. apply HN. fold n' in HL. rewrite HL in Hi. fold n'. lia. }
  - split; [simpl; apply length_resize|]. split; [simpl|split].
    + f_equal. subst n'. nia.
    + simpl. intros k' Hk'. clear - Hk'. nia.
    + simpl. intros k' Hk' Hk''. apply nth_resize; auto. lia.
  - intros m st Hm HI. cbv beta.
    (* last layer *)
    edestruct (rlayer_loop off p cnt c0 Hoff HL0 Hsm
      (fun index_in_group '(cps, gi) =>
        do x <- get cps (Z.to_nat (u32 (u32 (Z.of_nat m * u32 (Z.of_nat off * (Z.of_nat p + 1))) + Z.of_nat index_in_group) + Z.of_nat off * Z.of_nat p));
        do cps <- set cps (Z.to_nat gi) x;
        Ok (cps, u32 (gi - 1))) m (p + 1) st) as (st1 & E1 & HI1).
    { auto. } { lia. }
    { replace (off * (S (p + 1) + (p + 2) * m)) with (off * ((p + 2) * S m)) by lia. exact HI. }
    { intros a c gi Ha (HL & Hg & HN & HO). simpl in HL, HO. fold n' in HL.
      rewrite (rgroup_index off p cnt c0) by auto.
      replace (Z.to_nat (Z.of_nat (a + off * ((p + 1) * m)) + Z.of_nat off * Z.of_nat p))
        with (a + off * (p + (p + 1) * m)) by lia.
      pose proof (rindex_small off p cnt c0 Hoff HL0 Hsm m a p Hm Ha ltac:(lia)).
      rewrite (get_ok v0) by lia. cbn [bind].
      rewrite HO by nia.
      assert (Hlt : a + off * (p + 1 + (p + 2) * m) < n').
      { subst n'. assert (off * (p + 2) * S m <= off * (p + 2) * cnt) by (apply Nat.mul_le_mono_l; lia). nia. }
      fold n'. rewrite nth_relev_points by (auto; lia). rewrite relev_last.
      replace (p + (p + 1) * m) with (p + S p * m) by lia. reflexivity. }
    rewrite E1. cbn [bind].
    (* inner layers *)
    edestruct (for_down_inv (fun k0 st => rInv off p cnt c0 (off * (S k0 + (p + 2) * m)) st)
      (fun k0 st =>
        for_down off (fun index_in_group '(cps, gi) =>
          do x <- get cps (Z.to_nat (u32 (u32 (Z.of_nat m * u32 (Z.of_nat off * (Z.of_nat p + 1))) + Z.of_nat index_in_group) + Z.of_nat off * Z.of_nat (k0 + 1)));
          do y <- get cps (Z.to_nat (u32 (u32 (Z.of_nat m * u32 (Z.of_nat off * (Z.of_nat p + 1))) + Z.of_nat index_in_group) + Z.of_nat off * (Z.of_nat (k0 + 1) - 1)));
          do cps <- set cps (Z.to_nat gi)
             (vadd (vscale (ssub s1 (smul (sofnat (k0 + 1)) (sdiv s1 (sofnat (p + 1))))) x)
                   (vscale (smul (sofnat (k0 + 1)) (sdiv s1 (sofnat (p + 1)))) y));
          Ok (cps, u32 (gi - 1))) st) p st1) as (st2 & E2 & HI2).
    { replace (S p) with (p + 1) by lia. exact HI1. }
    { intros i st3 Hi HI3.
      edestruct (rlayer_loop off p cnt c0 Hoff HL0 Hsm
        (fun index_in_group '(cps, gi) =>
          do x <- get cps (Z.to_nat (u32 (u32 (Z.of_nat m * u32 (Z.of_nat off * (Z.of_nat p + 1))) + Z.of_nat index_in_group) + Z.of_nat off * Z.of_nat (i + 1)));
          do y <- get cps (Z.to_nat (u32 (u32 (Z.of_nat m * u32 (Z.of_nat off * (Z.of_nat p + 1))) + Z.of_nat index_in_group) + Z.of_nat off * (Z.of_nat (i + 1) - 1)));
          do cps <- set cps (Z.to_nat gi)
             (vadd (vscale (ssub s1 (smul (sofnat (i + 1)) (sdiv s1 (sofnat (p + 1))))) x)
                   (vscale (smul (sofnat (i + 1)) (sdiv s1 (sofnat (p + 1)))) y));
          Ok (cps, u32 (gi - 1))) m (i + 1) st3) as (st4 & E4 & HI4).
      { auto. } { lia. }
      { replace (S (i + 1)) with (S (S i)) by lia. exact HI3. }
      { intros a c gi Ha (HL & Hg & HN & HO). simpl in HL, HO. fold n' in HL.
        rewrite (rgroup_index off p cnt c0) by auto.
        replace (Z.to_nat (Z.of_nat (a + off * ((p + 1) * m)) + Z.of_nat off * Z.of_nat (i + 1)))
          with (a + off * (i + 1 + (p + 1) * m)) by lia.
        replace (Z.to_nat (Z.of_nat (a + off * ((p + 1) * m)) + Z.of_nat off * (Z.of_nat (i + 1) - 1)))
          with (a + off * (i + (p + 1) * m)) by lia.
        pose proof (rindex_small off p cnt c0 Hoff HL0 Hsm m a (i + 1) Hm Ha ltac:(lia)).
        pose proof (rindex_small off p cnt c0 Hoff HL0 Hsm m a i Hm Ha ltac:(lia)).
        rewrite (get_ok v0) by lia. cbn [bind]. rewrite (get_ok v0) by lia. cbn [bind].
        rewrite !HO by nia.
        assert (Hlt : a + off * (i + 1 + (p + 2) * m) < n').
        { subst n'. assert (off * (p + 2) * S m <= off * (p + 2) * cnt) by (apply Nat.mul_le_mono_l; lia). nia. }
        fold n'. rewrite nth_relev_points by (auto; lia). rewrite relev_mid by lia. cbv zeta.
        replace (i + 1 + (p + 1) * m) with (i + 1 + S p * m) by lia.
        replace (i + 1 - 1 + S p * m) with (i + (p + 1) * m) by lia. reflexivity. }
      exists st4. split; [exact E4|]. replace (S i) with (i + 1) by lia. exact HI4. }
    rewrite E2. cbn [bind].
    (* first layer *)
    edestruct (rlayer_loop off p cnt c0 Hoff HL0 Hsm
      (fun index_in_group '(cps, gi) =>
        do x <- get cps (Z.to_nat (u32 (u32 (Z.of_nat m * u32 (Z.of_nat off * (Z.of_nat p + 1))) + Z.of_nat index_in_group)));
        do cps <- set cps (Z.to_nat gi) x;
        Ok (cps, u32 (gi - 1))) m 0 st2) as (st5 & E5 & HI5).
    { auto. } { lia. }
    { exact HI2. }
    { intros a c gi Ha (HL & Hg & HN & HO). simpl in HL, HO. fold n' in HL.
      rewrite (rgroup_index off p cnt c0) by auto. rewrite Nat2Z.id.
      pose proof (rindex_small off p cnt c0 Hoff HL0 Hsm m a 0 Hm Ha ltac:(lia)) as Hx.
      rewrite Nat.add_0_l in Hx.
      rewrite (get_ok v0) by lia. cbn [bind].
      rewrite HO by nia.
      assert (Hlt : a + off * (0 + (p + 2) * m) < n').
      { subst n'. assert (off * (p + 2) * S m <= off * (p + 2) * cnt) by (apply Nat.mul_le_mono_l; lia). nia. }
      fold n'. rewrite nth_relev_points by (auto; lia). rewrite relev_0.
      replace (0 + S p * m) with ((p + 1) * m) by lia. reflexivity. }
    exists st5. split; [exact E5|exact HI5].
Qed.

Lemma rdc_0 x f j : dc x f 0 j = f j.
Proof. reflexivity. Qed.
Lemma rdc_S x f r j : dc x f (S r) j = vadd (vscale (ssub s1 x) (dc x f r j)) (vscale x (dc x f r (S j))).
Proof. reflexivity. Qed.
Lemma rsplit_slice (x : T) p off start (c1 c2 : list V) :
  0 < off -> start + p * off < length c1 -> length c2 = length c1 ->
  let f := fun j => nth (start + j * off) c1 v0 in
  nth (start + p * off) c2 v0 = f p ->
  exists c1' c2',
  for_up 1 p (fun i '(c1, c2) =>
      do c1 <- for_down (p + 1 - i) (fun k c1 =>
        let j := k + i in
        do a <- get c1 (start + (j - 1) * off);
        do b <- get c1 (start + j * off);
        set c1 (start + j * off) (vadd (vscale (ssub s1 x) a) (vscale x b))) c1;
      do x <- get c1 (start + p * off);
      do c2 <- set c2 (start + (p - i) * off) x;
      Ok (c1, c2)) (c1, c2) = Ok (c1', c2') /\
  length c1' = length c1 /\ length c2' = length c1 /\
  (forall j, j <= p -> nth (start + j * off) c1' v0 = dc x f j 0) /\
  (forall j, j <= p -> nth (start + j * off) c2' v0 = dc x f (p - j) j) /\
  (forall k, (forall j, j <= p -> k <> start + j * off) -> nth k c1' v0 = nth k c1 v0 /\ nth k c2' v0 = nth k c2 v0).
Proof.
  intros Hoff Hlen HL12 f Hp.
  edestruct (for_up_inv (fun i '((d1, d2) : list V * list V) => length d1 = length c1 /\ length d2 = length c1 /\
    (forall j, j <= p -> nth (start + j * off) d1 v0 = dc x f (min j (i - 1)) (j - (i - 1))) /\
    (forall j, j <= p -> p - j < i -> nth (start + j * off) d2 v0 = dc x f (p - j) j) /\
    (forall k, (forall j, j <= p -> k <> start + j * off) -> nth k d1 v0 = nth k c1 v0 /\ nth k d2 v0 = nth k c2 v0)))
    as ([d1 d2] & E & L1 & L2 & N1 & N2 & NO).
  3:{ exists d1, d2. split; [exact E|]. split; [auto|]. split; [auto|]. split; [|split; [|auto]].
      - intros j Hj. rewrite N1 by auto. replace (min j (1 + p - 1)) with j by lia. f_equal. lia.
      - intros j Hj. apply N2; lia. }
  - split; [auto|]. split; [auto|]. split; [|split; [|auto]].
    + intros j Hj. rewrite Nat.sub_diag, Nat.min_0_r, Nat.sub_0_r, rdc_0. reflexivity.
    + intros j Hj Hi. replace j with p by lia. rewrite Nat.sub_diag, rdc_0. auto.
  - intros i [d1 d2] Hi (L1 & L2 & N1 & N2 & NO).
    edestruct (for_down_inv (fun k (e1 : list V) => length e1 = length c1 /\
      (forall j, j <= p -> nth (start + j * off) e1 v0 =
         dc x f (min j (if k + i <=? j then i else i - 1)) (j - (if k + i <=? j then i else i - 1))) /\
      (forall k, (forall j, j <= p -> k <> start + j * off) -> nth k e1 v0 = nth k c1 v0)))
      as (e1 & E & Le & Ne & NOe).
    3:{ rewrite E. cbn [bind]. rewrite (get_ok v0) by lia. cbn [bind].
        rewrite set_ok by nia. cbn [bind]. eexists. split; [reflexivity|].
        split; [auto|]. split; [now rewrite length_upd|]. split; [|split].
        - intros j Hj. rewrite Ne by auto. destruct (Nat.leb_spec (0 + i) j); [do 2 f_equal; lia|].
          replace (min j (i - 1)) with (min j (S i - 1)) by lia.
          replace (j - (i - 1)) with (j - (S i - 1)) by lia. reflexivity.
        - intros j Hj Hji. rewrite nth_upd by nia.
          destruct (Nat.eqb_spec (start + j * off) (start + (p - i) * off)) as [Ej|Ej].
          + assert (j = p - i) by nia. subst j. rewrite Ne by lia.
            rewrite (proj2 (Nat.leb_le (0 + i) p)) by lia.
            replace (min p i) with (p - (p - i)) by lia. reflexivity.
          + apply N2; auto. destruct (Nat.eq_dec j (p - i)) as [->|]; [congruence|lia].
        - intros k Hk. split; [apply NOe; auto|]. rewrite nth_upd_other by (apply Hk; lia).
          apply NO; auto. }
    + split; [auto|]. split; [|intros; apply NO; auto]. intros j Hj. rewrite N1 by auto.
      rewrite (proj2 (Nat.leb_gt (p + 1 - i + i) j)) by lia. reflexivity.
    + intros k e1 Hk (Le & Ne & NOe). cbv zeta.
      rewrite (get_ok v0) by nia. cbn [bind]. rewrite (get_ok v0) by nia. cbn [bind].
      rewrite set_ok by nia. eexists. split; [reflexivity|]. rewrite length_upd. split; [auto|]. split.
      * intros j Hj. rewrite nth_upd by nia.
        destruct (Nat.eqb_spec (start + j * off) (start + (k + i) * off)) as [Ej|Ej].
        -- assert (j = k + i) by nia. subst j. rewrite !Ne by lia.
           rewrite (proj2 (Nat.leb_gt (S k + i) (k + i - 1))) by lia.
           rewrite (proj2 (Nat.leb_gt (S k + i) (k + i))) by lia.
           rewrite Nat.leb_refl.
           replace (min (k + i) i) with (S (i - 1)) by lia.
           replace (min (k + i - 1) (i - 1)) with (i - 1) by lia.
           replace (min (k + i) (i - 1)) with (i - 1) by lia.
           rewrite rdc_S. do 2 f_equal; f_equal; lia.
        -- rewrite Ne by auto. assert (j <> k + i) by (intros ->; congruence).
           replace (S k + i <=? j) with (k + i <=? j); auto.
           apply eq_true_iff_eq. rewrite !Nat.leb_le. lia.
      * intros q Hq. rewrite nth_upd_other by (apply Hq; lia). auto.
Qed.

(** Coefficients of the two parts. *)
Lemma SplitAtPosition_raw (s : spline V) (x : T) k :
  wf s -> k < length (degrees s) -> slt s0 x -> slt x s1 ->
  let p := nth k (degrees s) 0 in
  let off := n_coeffs (firstn k (degrees s)) in
  let cnt := n_coeffs (skipn (S k) (degrees s)) in
  let f a m := fun j => nth (a + off * (j + (p + 1) * m)) (control_points s) v0 in
  exists c1 c2, SplitAtPosition s x k = Ok [with_cps s c1; with_cps s c2] /\
    length c1 = length (control_points s) /\ length c2 = length (control_points s) /\
    forall a j m, a < off -> j <= p -> m < cnt ->
      nth (a + off * (j + (p + 1) * m)) c1 v0 = dc x (f a m) j 0 /\
      nth (a + off * (j + (p + 1) * m)) c2 v0 = dc x (f a m) (p - j) j.
Proof.
  intros Hw Hk H0 H1 p off cnt f. pose proof Hw as (Hd & Hn & Ho & Hc). unfold SplitAtPosition.
  unfold slt in H0, H1. rewrite H0, H1. cbn [andb negb].
  rewrite (get_ok 0) by auto. cbn [bind]. rewrite Ho.
  rewrite (get_ok 0) by (rewrite length_offsets; auto). cbn [bind]. rewrite nth_offsets by auto.
  fold p off. cbv zeta.
  assert (Hoff : 0 < off) by apply n_coeffs_pos.
  assert (Etot : n_coeffs (degrees s) = off * (p + 1) * cnt).
  { rewrite (n_coeffs_split (degrees s) k), (skipn_cons_nth 0 (degrees s) k) by auto.
    rewrite n_coeffs_cons. fold p off cnt. lia. }
  assert (Ediv : number_of_control_points s / (p + 1) = off * cnt).
  { rewrite Hn, Etot. replace (off * (p + 1) * cnt) with (off * cnt * (p + 1)) by lia.
    apply Nat.div_mul. lia. }
  rewrite Ediv.
  set (c0 := control_points s) in *. rewrite Etot in Hc.
  assert (Hst : forall id, id / off * (off * (p + 1)) + id mod off = id mod off + off * (p + 1) * (id / off)) by lia.
  edestruct (for_up_inv (fun id '((d1, d2) : list V * list V) => length d1 = length c0 /\ length d2 = length c0 /\
    forall a j m, a < off -> j <= p -> m < cnt ->
      nth (a + off * (j + (p + 1) * m)) d1 v0 =
        (if a + off * m <? id then dc x (f a m) j 0 else f a m j) /\
      nth (a + off * (j + (p + 1) * m)) d2 v0 =
        (if a + off * m <? id then dc x (f a m) (p - j) j else f a m j)))
    as ([d1 d2] & E & L1 & L2 & HN).
  3:{ exists d1, d2. rewrite E. cbn [bind]. split; [reflexivity|]. split; [auto|]. split; [auto|].
      intros a j m Ha Hj Hm. destruct (HN a j m Ha Hj Hm) as (A & B).
      rewrite (proj2 (Nat.ltb_lt (a + off * m) (0 + off * cnt))) in A, B by nia. auto. }
  - split; [auto|]. split; [auto|]. intros a j m Ha Hj Hm.
    rewrite (proj2 (Nat.ltb_ge _ 0)) by lia. auto.
  - intros id [d1 d2] Hid (L1 & L2 & HN).
    set (a0 := id mod off). set (m0 := id / off).
    assert (Eid : id = a0 + off * m0) by (unfold a0, m0; rewrite Nat.add_comm; apply Nat.div_mod; lia).
    assert (Ha0 : a0 < off) by (apply Nat.mod_upper_bound; lia).
    assert (Hm0 : m0 < cnt) by nia.
    set (start := m0 * (off * (p + 1)) + a0).
    assert (Hpt : forall j, start + j * off = a0 + off * (j + (p + 1) * m0)) by (intros; unfold start; lia).
    assert (Hmb : off * (p + 1) * (m0 + 1) <= off * (p + 1) * cnt) by (apply Nat.mul_le_mono_l; lia).
    destruct (rsplit_slice x p off start d1 d2) as (e1 & e2 & E & Le1 & Le2 & N1 & N2 & NO); auto.
    { rewrite L1, Hc. unfold start. nia. }
    { congruence. }
    { rewrite Hpt. destruct (HN a0 p m0 Ha0 (le_n p) Hm0) as (A & B).
      rewrite A, B, <- Eid, Nat.ltb_irrefl. auto. }
    assert (Ef : forall j, j <= p -> nth (start + j * off) d1 v0 = f a0 m0 j).
    { intros j Hj. rewrite Hpt. destruct (HN a0 j m0 Ha0 Hj Hm0) as (A & _).
      rewrite A, <- Eid, Nat.ltb_irrefl. auto. }
    assert (Edc : forall r j, j + r <= p -> dc x (fun j => nth (start + j * off) d1 v0) r j = dc x (f a0 m0) r j).
    { intros r j Hr. apply dc_ext. intros i Hi. apply Ef. lia. }
    exists (e1, e2). split; [exact E|]. split; [congruence|]. split; [congruence|].
    intros a j m Ha Hj Hm.
    destruct (Nat.eq_dec (a + off * m) id) as [Ei|Ei].
    + assert (a = a0 /\ m = m0).
      { assert (Ex : a = a0).
        { unfold a0. rewrite <- Ei. rewrite Nat.mul_comm, Nat.mod_add, Nat.mod_small by lia. auto. }
        split; auto. nia. }
      destruct H as (-> & ->). rewrite (proj2 (Nat.ltb_lt _ _)) by lia.
      rewrite <- Hpt. rewrite N1, N2 by auto. rewrite !Edc by lia. auto.
    + destruct (NO (a + off * (j + (p + 1) * m))) as (A & B).
      { intros j' Hj' Hx. rewrite Hpt in Hx. destruct (idx_inj off p a j m a0 j' m0) as (-> & _ & ->); auto. }
      rewrite A, B. replace (a + off * m <? S id) with (a + off * m <? id); [apply HN; auto|].
      apply eq_true_iff_eq. rewrite !Nat.ltb_lt. lia.
Qed.


(** ** DerivativeWRT *)
(** p (p-1) ... (p-k+1) *)
Fixpoint rfact (p k : nat) : T :=
  match k with
  | 0 => s1
  | S k' => match k' with 0 => sofnat p | S _ => smul (rfact p k') (sofnat (p - k')) end
  end.
(** The difference of order [k] after [n] of its [k] additions. *)
Fixpoint racc (h : nat -> V) (k n : nat) : V :=
  match n with
  | 0 => h 0
  | S n' => vadd (racc h k n') (vscale (smul (sgn n) (sofN (binom k n))) (h n))
  end.
Definition rdstep (i k p : nat) (G : list nat -> V) (mi : list nat) : V :=
  if k =? 0 then G mi else
  vscale (smul (sgn k) (rfact p k)) (racc (fun j => G (upd_list mi i (nth i mi 0 + j))) k k).
Lemma rdstep_0 i p G mi : rdstep i 0 p G mi = G mi.
Proof. reflexivity. Qed.
Fixpoint rGiter (ks degs : list nat) (G : list nat -> V) (n : nat) : list nat -> V :=
  match n with
  | 0 => G
  | S i => rdstep i (nth i ks 0) (nth i degs 0) (rGiter ks degs G i)
  end.

(** ** One direction of the loop *)
Context (MAXB : nat) (HB : MAXB <= 68).

Lemma rfact_loop p k : 0 < k ->
  for_up 1 (k - 1) (fun i f => Ok (smul f (sofnat (p - i)))) (sofnat p) = Ok (rfact p k : T).
Proof.
  intros Hk. edestruct (for_up_inv (fun i v => v = (rfact p i : T))) as (v & E & ->).
  3:{ rewrite E. do 2 f_equal. lia. }
  - reflexivity.
  - intros i v Hi ->. eexists. split; [reflexivity|]. destruct i; [lia|reflexivity].
Qed.

Lemma dir_step_raw (s : spline V) orders i nd cps G :
  wf s -> length orders = length (degrees s) -> i < length (degrees s) ->
  Forall2 le nd (degrees s) -> nth i nd 0 = nth i (degrees s) 0 ->
  nth i orders 0 <= nth i (degrees s) 0 -> nth i orders 0 < MAXB ->
  holds s nd cps G ->
  exists cps', dir_step MAXB s orders i (nd, cps) = Ok (upd_list nd i (nth i (degrees s) 0 - nth i orders 0), cps') /\
    holds s (upd_list nd i (nth i (degrees s) 0 - nth i orders 0)) cps'
      (rdstep i (nth i orders 0) (nth i (degrees s) 0) G).
Proof.
  intros Hw HLo Hi Hnd Hni Hle Hmb (HL & HG).
  pose proof Hw as (Hd & Hn & Hof & Hc).
  assert (HLn : length nd = length (degrees s)) by (eapply Forall2_len; eauto).
  unfold dir_step. rewrite (get_ok 0) by lia. cbn [bind].
  set (k := nth i orders 0) in *. set (p := nth i (degrees s) 0) in *.
  destruct (Nat.eqb_spec k 0) as [Hk0|Hk0].
  { exists cps. rewrite Hk0, Nat.sub_0_r. rewrite <- Hni.
    replace (upd_list nd i (nth i nd 0)) with nd by (symmetry; rewrite <- (Nat.add_0_r (nth i nd 0)); apply upd_at_0).
    split; [auto|]. exact (conj HL HG). }
  rewrite (get_ok 0) by lia. cbn [bind]. rewrite Hni. fold p.
  rewrite (proj2 (Nat.ltb_ge p k)) by lia. cbn [bind]. rewrite set_ok by lia. cbn [bind].
  rewrite (get_ok 0) by lia. cbn [bind]. fold p. rewrite rfact_loop by lia. cbn [bind].
  set (nd' := upd_list nd i (p - k)).
  assert (HLn' : length nd' = length (degrees s)) by (unfold nd'; rewrite length_upd; auto).
  assert (Hnn : nd' <> []) by (intros E; rewrite E in HLn'; simpl in HLn'; lia).
  unfold count_points_nd. rewrite count_points_ok. cbn [bind].
  assert (Hval : forall mi, valid_index nd' mi -> valid_index nd mi).
  { intros mi Hm. apply (valid_upd_degs nd mi i (p - k)); auto; lia. }
  assert (Hval2 : forall mi, valid_index nd mi -> valid_index (degrees s) mi).
  { intros mi Hm. eapply valid_le; eauto. }
  assert (Hpos : forall mi, valid_index nd mi -> position (degrees s) mi < length cps).
  { intros mi Hm. rewrite HL, Hc. apply position_lt. auto. }
  edestruct (for_up_inv (fun g c => length c = length cps /\
    (forall g', g' < g -> nth (position (degrees s) (index_of nd' g')) c v0 = rdstep i k p G (index_of nd' g')) /\
    (forall mi, valid_index nd mi -> (forall g', g' < g -> mi <> index_of nd' g') ->
       nth (position (degrees s) mi) c v0 = G mi))) as (c & E & HLc & H1 & H2).
  3:{ rewrite E. cbn [bind]. exists c. split; [reflexivity|]. split; [congruence|].
      intros mi Hm. rewrite <- (index_of_position nd' mi Hm). apply H1. apply position_lt. auto. }
  - split; auto. split; [intros; lia|]. intros mi Hm _. auto.
  - intros g c Hg (HLc & H1 & H2). cbv beta. rewrite multi_index_ok by auto. cbn [bind].
    set (mi0 := index_of nd' g).
    assert (Hv0 : valid_index nd' mi0) by apply index_of_valid.
    assert (HLm : length mi0 = length (degrees s)) by (unfold mi0; rewrite length_index_of; auto).
    rewrite GlobalToLocal_ok by auto. cbn [bind].
    set (ip := position (degrees s) mi0).
    assert (Hm0 : nth i mi0 0 <= p - k).
    { pose proof (valid_nth_le _ _ i Hv0) as A. unfold nd' in A. rewrite nth_upd_same in A by lia. exact A. }
    (* sources *)
    assert (Hsrc : forall j, j <= k -> valid_index nd (upd_list mi0 i (nth i mi0 0 + j))).
    { intros j Hj. apply valid_upd; [apply Hval; auto| |lia]. fold p in Hni. lia. }
    assert (Hsv : forall j, 1 <= j <= k -> nth (position (degrees s) (upd_list mi0 i (nth i mi0 0 + j))) c v0 =
      G (upd_list mi0 i (nth i mi0 0 + j))).
    { intros j Hj. apply H2; [apply Hsrc; lia|]. intros g' Hg' Eq.
      assert (A : position nd' (upd_list mi0 i (nth i mi0 0 + j)) = g').
      { rewrite Eq. apply position_index_of. lia. }
      rewrite position_step in A by lia. unfold mi0 in A. rewrite position_index_of in A by lia.
      lia. }
    assert (Hsp : forall j, 1 <= j <= k -> position (degrees s) (upd_list mi0 i (nth i mi0 0 + j)) <> ip).
    { intros j Hj. unfold ip. rewrite position_step by lia. pose proof (n_coeffs_pos (firstn i (degrees s))). nia. }
    assert (Hip : ip < length c) by (rewrite HLc; apply Hpos; apply Hval; auto).
    edestruct (for_up_inv (fun j '(c', mi) => length c' = length cps /\
      mi = upd_list mi0 i (nth i mi0 0 + (j - 1)) /\
      (forall q, q <> ip -> nth q c' v0 = nth q c v0) /\
      nth ip c' v0 = racc (fun j => G (upd_list mi0 i (nth i mi0 0 + j))) k (j - 1)))
      as ((c' & mi) & E & HLc' & -> & HO & HI).
    3:{ rewrite E. cbn [bind]. rewrite (get_ok v0) by lia. cbn [bind]. rewrite set_ok by lia.
        eexists. split; [reflexivity|]. rewrite length_upd. split; [auto|].
        assert (HI' : nth ip (upd_list c' ip (vscale (smul (if Nat.even k then s1 else sopp s1) (rfact p k)) (nth ip c' v0))) v0
          = rdstep i k p G mi0).
        { rewrite nth_upd_same by lia. rewrite HI. unfold rdstep. rewrite (proj2 (Nat.eqb_neq k 0)) by auto. replace (1 + k - 1) with k by lia. reflexivity. }
        split.
        - intros g' Hg'. destruct (Nat.eq_dec g' g) as [->|Hne]; [exact HI'|].
          rewrite nth_upd_other.
          + rewrite HO; [apply H1; lia|]. unfold ip. intros A. apply position_inj in A.
            * apply (f_equal (position nd')) in A. unfold mi0 in A. rewrite !position_index_of in A by lia. lia.
            * apply Hval2, Hval, index_of_valid.
            * apply Hval2, Hval; auto.
          + unfold ip. intros A. apply position_inj in A.
            * apply (f_equal (position nd')) in A. unfold mi0 in A. rewrite !position_index_of in A by lia. lia.
            * apply Hval2, Hval, index_of_valid.
            * apply Hval2, Hval; auto.
        - intros mi Hm Hnot. assert (A : position (degrees s) mi <> ip).
          { unfold ip. intros A. apply position_inj in A; auto. apply (Hnot g); auto. }
          rewrite nth_upd_other by auto. rewrite HO by auto. apply H2; auto. }
    + cbv beta iota. split; auto. split; [rewrite upd_at_0; auto|]. split; auto.
      cbn [racc Nat.sub]. rewrite upd_at_0.
      unfold ip. rewrite H2; [reflexivity|apply Hval; auto|].
      intros g' Hg' A. apply (f_equal (position nd')) in A. unfold mi0 in A. rewrite !position_index_of in A by lia. lia.
    + intros j [c' mi] Hj (HLc' & -> & HO & HI). cbv beta iota.
      rewrite (get_ok 0) by (rewrite length_upd; lia). cbn [bind].
      rewrite set_ok by (rewrite length_upd; lia). cbn [bind]. rewrite choose_ok by lia. cbn [bind].
      rewrite nth_upd_same by lia.
      assert (EU : upd_list (upd_list mi0 i (nth i mi0 0 + (j - 1))) i (nth i mi0 0 + (j - 1) + 1) =
        upd_list mi0 i (nth i mi0 0 + j)).
      { replace (nth i mi0 0 + (j - 1) + 1) with (nth i mi0 0 + j) by lia.
        apply upd_upd. }
      rewrite EU. rewrite GlobalToLocal_ok by (auto; rewrite length_upd; lia). cbn [bind].
      rewrite (get_ok v0) by (rewrite HLc'; apply Hpos, Hsrc; lia). cbn [bind].
      rewrite (get_ok v0) by lia. cbn [bind]. rewrite set_ok by lia. cbn [bind].
      eexists. split; [reflexivity|]. cbv beta iota. rewrite length_upd. split; auto.
      split; [do 2 f_equal; lia|]. split.
      * intros q Hq. rewrite nth_upd_other by auto. auto.
      * rewrite nth_upd_same by lia. rewrite HI, HO by (apply Hsp; lia). rewrite Hsv by lia.
        destruct j as [|j]; [lia|]. cbn [Nat.sub]. rewrite Nat.sub_0_r. cbn [racc]. reflexivity.
Qed.

Lemma dir_loop_raw (s : spline V) orders :
  wf s -> length orders = length (degrees s) -> Forall2 le orders (degrees s) ->
  Forall (fun k => k < MAXB) orders ->
  exists cps, for_up 0 (length (degrees s)) (dir_step MAXB s orders) (degrees s, control_points s) =
    Ok (map2 Nat.sub (degrees s) orders, cps) /\
    holds s (map2 Nat.sub (degrees s) orders) cps
      (rGiter orders (degrees s) (fun mi => nth (position (degrees s) mi) (control_points s) v0) (length (degrees s))).
Proof.
  intros Hw HL Hle HM.
  assert (Hn : forall j, nth j orders 0 <= nth j (degrees s) 0) by (apply le_nth; exact Hle).
  edestruct (for_up_inv (fun i '(nd, cps) => length nd = length (degrees s) /\
    (forall j, j < length (degrees s) -> nth j nd 0 = if j <? i then nth j (degrees s) 0 - nth j orders 0 else nth j (degrees s) 0) /\
    holds s nd cps (rGiter orders (degrees s) (fun mi => nth (position (degrees s) mi) (control_points s) v0) i)))
    as ((nd & cps) & E & L & HN & HH).
  3:{ rewrite E. assert (EN : nd = map2 Nat.sub (degrees s) orders).
      { apply (list_ext 0); [rewrite length_map2 by (symmetry; auto); auto|]. intros j Hj. rewrite HN by lia.
        rewrite (proj2 (Nat.ltb_lt _ _)) by lia. symmetry. apply nth_map2_sub; lia. }
      subst nd. exists cps. split; auto. }
  - cbv beta iota. split; auto. split; [intros; reflexivity|]. split; auto.
  - intros i [nd cps] Hi (L & HN & HH). cbv beta iota.
    assert (Hnd : Forall2 le nd (degrees s)).
    { apply Forall2_nth_le; auto. intros j Hj. rewrite HN by lia. destruct (j <? i); lia. }
    assert (Hni : nth i nd 0 = nth i (degrees s) 0) by (rewrite HN by lia; now rewrite Nat.ltb_irrefl).
    assert (HMi : nth i orders 0 < MAXB) by (eapply Forall_forall in HM; [exact HM|]; apply nth_In; lia).
    destruct (dir_step_raw s orders i nd cps _ Hw HL ltac:(lia) Hnd Hni (Hn i) HMi HH) as (cps' & E & HH').
    + rewrite E. eexists. split; [reflexivity|]. cbv beta iota. rewrite length_upd. split; auto. split.
      * intros j Hj. rewrite nth_upd by lia. destruct (Nat.eqb_spec j i) as [->|].
        -- rewrite (proj2 (Nat.ltb_lt _ _)) by lia. reflexivity.
        -- rewrite HN by lia. destruct (Nat.ltb_spec j i), (Nat.ltb_spec j (S i)); lia.
      * exact HH'.
Qed.

Lemma DerivativeWRT_raw (s : spline V) orders :
  wf s -> length orders = length (degrees s) -> Forall2 le orders (degrees s) ->
  Forall (fun k => k < MAXB) orders ->
  exists r, DerivativeWRT MAXB s orders = Ok r /\ wf r /\ degrees r = map2 Nat.sub (degrees s) orders /\
    forall mi, valid_index (map2 Nat.sub (degrees s) orders) mi ->
      nth (position (map2 Nat.sub (degrees s) orders) mi) (control_points r) v0 =
      rGiter orders (degrees s) (fun mi => nth (position (degrees s) mi) (control_points s) v0) (length (degrees s)) mi.
Proof.
  intros Hw HL Hle HM. pose proof Hw as (Hd & Hn & Hof & Hc).
  destruct (dir_loop_raw s orders Hw HL Hle HM) as (cps & E & HLc & HG).
  unfold DerivativeWRT. change (for_up 0 (length (degrees s)) _ (degrees s, control_points s)) with
    (for_up 0 (length (degrees s)) (dir_step MAXB s orders) (degrees s, control_points s)).
  rewrite E. cbn [bind]. set (nd := map2 Nat.sub (degrees s) orders) in *.
  assert (HLn : length nd = length (degrees s)) by (unfold nd; rewrite length_map2 by (symmetry; auto); auto).
  assert (Hnn : nd <> []) by (destruct nd, (degrees s); try discriminate; simpl in *; congruence).
  assert (Hnle : Forall2 le nd (degrees s)).
  { apply Forall2_nth_le; auto. intros j Hj. unfold nd. rewrite nth_map2_sub by lia. lia. }
  rewrite Spline_deg_ok by auto. cbn [bind]. set (der := mk nd _).
  assert (Wd : wf der) by (apply wf_mk; [auto|apply repeat_length]).
  change (number_of_control_points der) with (n_coeffs nd).
  edestruct (for_up_inv (fun i c => length c = n_coeffs nd /\
    forall j, j < i -> nth j c v0 = nth (position (degrees s) (index_of nd j)) cps v0)) as (c & E2 & Lc & HN).
  3:{ rewrite E2. cbn [bind]. eexists. split; [reflexivity|].
      split; [apply with_cps_wf; auto|]. split; [reflexivity|].
      intros mi Hm. change (control_points (with_cps der c)) with c.
      rewrite HN by (apply position_lt; auto). rewrite index_of_position by auto. auto. }
  - split; [apply repeat_length|]. intros; lia.
  - intros i c Hi (Lc & HN). cbv beta. rewrite LocalToGlobal_ok by auto. cbn [bind].
    change (degrees der) with nd.
    rewrite GlobalToLocal_ok by (auto; rewrite length_index_of; auto). cbn [bind].
    rewrite (get_ok v0).
    2:{ rewrite HLc, Hc. apply position_lt. apply (valid_le nd); auto. apply index_of_valid. }
    cbn [bind]. rewrite set_ok by lia. eexists. split; [reflexivity|]. rewrite length_upd. split; auto.
    intros j Hj. rewrite nth_upd by lia. destruct (Nat.eqb_spec j i) as [->|]; auto. apply HN. lia.
Qed.
End Raw.
