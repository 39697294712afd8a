(** OrderElevateAlongParametricDimension. *)
From Coq Require Import Arith Lia List ZArith NArith Bool Ring Field.
From Verif Require Import Prelude Scalar Spec SpecSpline Sums ModelBasis ModelSpline ProofIndex ProofBasis ProofEval.
Import ListNotations.

Section Elev.
Context {T V : Type} {o : SOps T} {ov : VOps T V} {F : SField T} {M : VMod T V}.
Add Field Tfield : (@sf_th T o F).
Add Ring Ering : (@ext_ring T V o ov F M).
Ltac vring := to_ext; ring.

(** Coefficient matrix of degree elevation from [p] to [p+1]. *)
Definition elev_coef (p i j : nat) : T :=
  sadd (if j =? i then ssub s1 (smul (sofnat i) (sdiv s1 (sofnat (p + 1)))) else s0)
       (if S j =? i then smul (sofnat i) (sdiv s1 (sofnat (p + 1))) else s0).

(** New coefficient [i] of a line of coefficients [f 0 .. f p]. *)
Definition elev (p : nat) (f : nat -> V) (i : nat) : V :=
  vsum (S p) (fun j => vscale (elev_coef p i j) (f j)).

Lemma elev_0 p f : elev p f 0 = f 0.
Proof.
  unfold elev. rewrite (vsum_single (S p) 0).
  - unfold elev_coef. simpl (0 =? 0). simpl (1 =? 0). cbv iota. rewrite sofnat_0.
    replace (sadd (ssub s1 (smul s0 (sdiv s1 (sofnat (p + 1))))) s0) with (s1 : T) by ring.
    apply vm_1.
  - lia.
  - intros j Hj Hne. unfold elev_coef. rewrite (proj2 (Nat.eqb_neq j 0)) by auto.
    simpl. replace (sadd s0 s0) with (s0 : T) by ring. apply vscale_0_l.
Qed.

Lemma elev_last p f : elev p f (p + 1) = f p.
Proof.
  unfold elev. rewrite (vsum_single (S p) p).
  - unfold elev_coef. rewrite (proj2 (Nat.eqb_neq p (p + 1))) by lia.
    rewrite (proj2 (Nat.eqb_eq (S p) (p + 1))) by lia.
    replace (sadd s0 _) with (s1 : T).
    + apply vm_1.
    + field. apply sofnat_neq0. lia.
  - lia.
  - intros j Hj Hne. unfold elev_coef.
    rewrite (proj2 (Nat.eqb_neq j (p + 1))), (proj2 (Nat.eqb_neq (S j) (p + 1))) by lia.
    replace (sadd s0 s0) with (s0 : T) by ring. apply vscale_0_l.
Qed.

Lemma elev_mid p f i :
  1 <= i <= p ->
  elev p f i =
  let fac := smul (sofnat i) (sdiv s1 (sofnat (p + 1))) in
  vadd (vscale (ssub s1 fac) (f i)) (vscale fac (f (i - 1))).
Proof.
  intros Hi. unfold elev. set (fac := smul (sofnat i) (sdiv s1 (sofnat (p + 1)))). cbv zeta.
  rewrite (vsum_ext (S p) _ (fun j => vadd
     (if j =? i then vscale (ssub s1 fac) (f i) else v0)
     (if j =? i - 1 then vscale fac (f (i - 1)) else v0))).
  - rewrite vsum_add. f_equal.
    + rewrite (vsum_single (S p) i); [now rewrite Nat.eqb_refl|lia|].
      intros j Hj Hne. now rewrite (proj2 (Nat.eqb_neq j i)).
    + rewrite (vsum_single (S p) (i - 1)); [now rewrite Nat.eqb_refl|lia|].
      intros j Hj Hne. now rewrite (proj2 (Nat.eqb_neq j (i - 1))).
  - intros j Hj. unfold elev_coef. fold fac.
    destruct (Nat.eqb_spec j i) as [->|].
    + rewrite (proj2 (Nat.eqb_neq (S i) i)), (proj2 (Nat.eqb_neq i (i - 1))) by lia. vring.
    + destruct (Nat.eqb_spec (S j) i) as [Ei|].
      * rewrite (proj2 (Nat.eqb_eq j (i - 1))) by lia. replace (i - 1) with j by lia. vring.
      * rewrite (proj2 (Nat.eqb_neq j (i - 1))) by lia. vring.
Qed.

(** The elevated control points. *)
Definition elev_points (pre : nat) (p : nat) (n' : nat) (c : list V) : list V :=
  map (fun q => elev p (fun j => nth (q mod pre + pre * (j + S p * ((q / pre) / (p + 2)))) c v0)
                  ((q / pre) mod (p + 2))) (seq 0 n').

Lemma decompose a off i q m :
  a < off -> i < q -> (a + off * (i + q * m)) mod off = a /\
  ((a + off * (i + q * m)) / off) mod q = i /\ ((a + off * (i + q * m)) / off) / q = m.
Proof.
  intros Ha Hi.
  replace (a + off * (i + q * m)) with (a + (i + q * m) * off) by lia.
  rewrite Nat.mod_add, Nat.div_add by lia.
  rewrite (Nat.mod_small a), (Nat.div_small a) by lia. rewrite Nat.add_0_l.
  replace (i + q * m) with (i + m * q) by lia.
  rewrite Nat.mod_add, Nat.div_add by lia.
  rewrite (Nat.mod_small i), (Nat.div_small i) by lia. auto.
Qed.

Lemma nth_elev_points off p n' c a i m :
  a < off -> i <= p + 1 -> a + off * (i + (p + 2) * m) < n' ->
  nth (a + off * (i + (p + 2) * m)) (elev_points off p n' c) v0 =
  elev p (fun j => nth (a + off * (j + S p * m)) c v0) i.
Proof.
  intros Ha Hi Hn. unfold elev_points. rewrite nth_map_seq by auto.
  destruct (decompose a off i (p + 2) m) as (-> & -> & ->); auto. lia.
Qed.

Section Loops.
(** All quantities of the elevation loops, without wrap-around. *)
Variables (off p cnt : nat) (c0 : list V).
Hypothesis Hoff : 0 < off.
Hypothesis HL0 : length c0 = off * (p + 1) * cnt.
Let n' := off * (p + 2) * cnt.
Hypothesis Hsmall : (Z.of_nat n' < 2 ^ 31)%Z.

Let tgt := elev_points off p n' c0.

Definition Inv (g : nat) (st : list V * Z) : Prop :=
  length (fst st) = n' /\ snd st = u32 (Z.of_nat g - 1) /\
  (forall k, g <= k < n' -> nth k (fst st) v0 = nth k tgt v0) /\
  (forall k, k < g -> k < length c0 -> nth k (fst st) v0 = nth k c0 v0).

Lemma Inv_write g c gi x :
  Inv (S g) (c, gi) -> g < n' -> x = nth g tgt v0 ->
  set c (Z.to_nat gi) x = Ok (upd_list c g x) /\
  Inv g (upd_list c g x, u32 (gi - 1)).
Proof.
  intros (HL & Hg & HN & HO) Hlt Hx. cbn [fst snd] in *.
  assert (Eg : gi = Z.of_nat g).
  { rewrite Hg. rewrite u32_small; lia. }
  rewrite Eg, Nat2Z.id. split.
  - apply set_ok. lia.
  - split; [simpl; rewrite length_upd; auto|]. split; [reflexivity|]. split; simpl.
    + intros k Hk. rewrite nth_upd by lia.
      destruct (Nat.eqb_spec k g) as [->|]; auto. apply HN. lia.
    + intros k Hk Hk'. rewrite nth_upd_other by lia. apply HO; lia.
Qed.

(** One inner loop: writes the layer [i] of group [m]. *)
Lemma layer_loop (body : nat -> list V * Z -> res (list V * Z)) m i st :
  m < cnt -> i <= p + 1 ->
  Inv (off * (S i + (p + 2) * m)) st ->
  (forall a c gi, a < off ->
     Inv (S (a + off * (i + (p + 2) * m))) (c, gi) ->
     body a (c, gi) =
       do c' <- set c (Z.to_nat gi) (nth (a + off * (i + (p + 2) * m)) tgt v0);
       Ok (c', u32 (gi - 1))) ->
  exists st', for_down off body st = Ok st' /\ Inv (off * (i + (p + 2) * m)) st'.
Proof.
  intros Hm Hi HI Hb.
  edestruct (for_down_inv (fun a st => Inv (a + off * (i + (p + 2) * m)) st) body off st)
    as (st' & E & H).
  3:{ exists st'. split; [exact E|exact H]. }
  - replace (off + off * (i + (p + 2) * m)) with (off * (S i + (p + 2) * m)) by lia. exact HI.
  - intros a [c gi] Ha HIa. rewrite Hb by auto.
    destruct (Inv_write (a + off * (i + (p + 2) * m)) c gi
                (nth (a + off * (i + (p + 2) * m)) tgt v0)) as (E & HI'); auto.
    + unfold n'. assert (S m <= cnt) by lia.
      assert (off * (p + 2) * S m <= off * (p + 2) * cnt) by (apply Nat.mul_le_mono_l; auto). nia.
    + rewrite E. cbn [bind]. eexists; split; [reflexivity|exact HI'].
Qed.

Lemma index_small m a i :
  m < cnt -> a < off -> i <= p -> a + off * (i + (p + 1) * m) < length c0.
Proof.
  intros. rewrite HL0. assert (S m <= cnt) by lia.
  assert (off * (p + 1) * S m <= off * (p + 1) * cnt) by (apply Nat.mul_le_mono_l; auto). nia.
Qed.

Lemma group_index m a :
  m < cnt -> a < off ->
  u32 (u32 (Z.of_nat m * u32 (Z.of_nat off * (Z.of_nat p + 1))) + Z.of_nat a) =
  Z.of_nat (a + off * ((p + 1) * m)).
Proof.
  intros Hm Ha.
  pose proof (index_small m a 0 Hm Ha ltac:(lia)) as H1. rewrite Nat.add_0_l in H1.
  assert (HLs : length c0 <= n').
  { rewrite HL0. unfold n'. apply Nat.mul_le_mono_r. apply Nat.mul_le_mono_l. lia. }
  assert (H2 : off * (p + 1) <= n') by (unfold n'; nia).
  rewrite (u32_small (Z.of_nat off * (Z.of_nat p + 1))) by nia.
  rewrite (u32_small (Z.of_nat m * _)) by nia.
  rewrite u32_small by nia. nia.
Qed.

End Loops.

Lemma u32_i32_id z : (0 <= z < 2 ^ 31)%Z -> u32 (i32 z) = z.
Proof. intros. rewrite i32_small, u32_small; lia. Qed.

Theorem OrderElevate_ok (s : spline V) k :
  wf s -> k < length (degrees s) ->
  let p := nth k (degrees s) 0 in
  let degs' := upd_list (degrees s) k (p + 1) in
  (Z.of_nat (n_coeffs degs') < 2 ^ 31)%Z ->
  OrderElevate s k =
  Ok (mk degs' (elev_points (n_coeffs (firstn k (degrees s))) p (n_coeffs degs') (control_points s))).
Proof.
  intros Hw Hk p degs' Hsm. pose proof Hw as (Hd & Hn & Ho & Hc).
  unfold OrderElevate. set (degs := degrees s) in *.
  rewrite (get_ok 0 degs) by auto. cbn [bind]. rewrite Ho.
  rewrite (get_ok 0) by (rewrite length_offsets; auto). cbn [bind].
  rewrite nth_offsets by auto. fold p.
  set (off := n_coeffs (firstn k degs)) in *.
  set (cnt := n_coeffs (skipn (S k) degs)).
  assert (Hoff : 0 < off) by apply n_coeffs_pos.
  assert (Hcnt : 0 < cnt) by apply n_coeffs_pos.
  assert (Etot : n_coeffs degs = off * (p + 1) * cnt).
  { rewrite (n_coeffs_split degs k), (skipn_cons_nth 0 degs k) by auto.
    rewrite n_coeffs_cons. fold p off cnt. lia. }
  assert (Etot' : n_coeffs degs' = off * (p + 2) * cnt).
  { unfold degs'. rewrite upd_split by auto.
    rewrite n_coeffs_app, n_coeffs_cons. fold off cnt. lia. }
  assert (Ediv : number_of_control_points s / (p + 1) = off * cnt).
  { rewrite Hn, Etot. replace (off * (p + 1) * cnt) with (off * cnt * (p + 1)) by lia.
    apply Nat.div_mul. lia. }
  cbv zeta. rewrite Ediv.
  replace (off * cnt * (p + 2)) with (off * (p + 2) * cnt) by lia.
  set (n' := off * (p + 2) * cnt) in *.
  rewrite Etot' in Hsm.
  assert (Hb1 : off * cnt <= n') by (subst n'; nia).
  assert (Hb2 : off <= n') by (subst n'; nia).
  assert (Hb3 : cnt <= n') by (subst n'; nia).
  rewrite (i32_small (Z.of_nat off)) by lia.
  rewrite (proj2 (Z.eqb_neq (Z.of_nat off) 0)) by lia. cbn [bind].
  rewrite set_ok by auto. cbn [bind]. fold degs'.
  rewrite divS_ok by (apply sofnat_neq0; lia). cbn [bind].
  rewrite (u32_small (Z.of_nat (off * cnt))) by lia.
  rewrite (u32_small (Z.of_nat off)) by lia.
  replace (Z.of_nat (off * cnt) / Z.of_nat off)%Z with (Z.of_nat cnt).
  2:{ rewrite Nat2Z.inj_mul, Z.mul_comm, Z.div_mul; lia. }
  rewrite (i32_small (Z.of_nat cnt)) by lia. rewrite !Nat2Z.id.
  assert (HL0 : length (control_points s) = off * (p + 1) * cnt) by (rewrite Hc; auto).
  set (c0 := control_points s) in *.
  assert (HLs : length c0 <= n') by (rewrite HL0; subst n'; apply Nat.mul_le_mono_r, Nat.mul_le_mono_l; lia).
  edestruct (for_down_inv (fun m st => Inv off p cnt c0 (off * ((p + 2) * m)) st))
    as ([c gi] & E & HI).
  3:{ rewrite E. cbn [bind]. rewrite UpdateIndexOffsets_ok.
      2:{ unfold degs'. destruct degs; simpl; [congruence|]. destruct k; simpl; congruence. }
      cbn [bind]. rewrite Etot'. fold n'. unfold mk. rewrite Etot'. fold n'.
      f_equal. f_equal. destruct HI as (HL & _ & HN & _). simpl in *.
      apply (list_ext v0).
      - unfold elev_points. rewrite map_length, seq_length. exact HL.
      - intros i Hi. apply HN. fold n' in HL. rewrite HL in Hi. fold n'. lia. }
  - split; [simpl; apply length_resize|]. split; [simpl|split].
    + f_equal. subst n'. nia.
    + simpl. intros k' Hk'. clear - Hk'. nia.
    + simpl. intros k' Hk' Hk''. apply nth_resize; auto. lia.
  - intros m st Hm HI. cbv beta.
    (* last layer *)
    edestruct (layer_loop off p cnt c0 Hoff HL0 Hsm
      (fun index_in_group '(cps, gi) =>
        do x <- get cps (Z.to_nat (u32 (u32 (Z.of_nat m * u32 (Z.of_nat off * (Z.of_nat p + 1))) + Z.of_nat index_in_group) + Z.of_nat off * Z.of_nat p));
        do cps <- set cps (Z.to_nat gi) x;
        Ok (cps, u32 (gi - 1))) m (p + 1) st) as (st1 & E1 & HI1).
    { auto. } { lia. }
    { replace (off * (S (p + 1) + (p + 2) * m)) with (off * ((p + 2) * S m)) by lia. exact HI. }
    { intros a c gi Ha (HL & Hg & HN & HO). simpl in HL, HO. fold n' in HL.
      rewrite (group_index off p cnt c0) by auto.
      replace (Z.to_nat (Z.of_nat (a + off * ((p + 1) * m)) + Z.of_nat off * Z.of_nat p))
        with (a + off * (p + (p + 1) * m)) by lia.
      pose proof (index_small off p cnt c0 Hoff HL0 Hsm m a p Hm Ha ltac:(lia)).
      rewrite (get_ok v0) by lia. cbn [bind].
      rewrite HO by nia.
      assert (Hlt : a + off * (p + 1 + (p + 2) * m) < n').
      { subst n'. assert (off * (p + 2) * S m <= off * (p + 2) * cnt) by (apply Nat.mul_le_mono_l; lia). nia. }
      fold n'. rewrite nth_elev_points by (auto; lia). rewrite elev_last.
      replace (p + (p + 1) * m) with (p + S p * m) by lia. reflexivity. }
    rewrite E1. cbn [bind].
    (* inner layers *)
    edestruct (for_down_inv (fun k0 st => Inv off p cnt c0 (off * (S k0 + (p + 2) * m)) st)
      (fun k0 st =>
        for_down off (fun index_in_group '(cps, gi) =>
          do x <- get cps (Z.to_nat (u32 (u32 (Z.of_nat m * u32 (Z.of_nat off * (Z.of_nat p + 1))) + Z.of_nat index_in_group) + Z.of_nat off * Z.of_nat (k0 + 1)));
          do y <- get cps (Z.to_nat (u32 (u32 (Z.of_nat m * u32 (Z.of_nat off * (Z.of_nat p + 1))) + Z.of_nat index_in_group) + Z.of_nat off * (Z.of_nat (k0 + 1) - 1)));
          do cps <- set cps (Z.to_nat gi)
             (vadd (vscale (ssub s1 (smul (sofnat (k0 + 1)) (sdiv s1 (sofnat (p + 1))))) x)
                   (vscale (smul (sofnat (k0 + 1)) (sdiv s1 (sofnat (p + 1)))) y));
          Ok (cps, u32 (gi - 1))) st) p st1) as (st2 & E2 & HI2).
    { replace (S p) with (p + 1) by lia. exact HI1. }
    { intros i st3 Hi HI3.
      edestruct (layer_loop off p cnt c0 Hoff HL0 Hsm
        (fun index_in_group '(cps, gi) =>
          do x <- get cps (Z.to_nat (u32 (u32 (Z.of_nat m * u32 (Z.of_nat off * (Z.of_nat p + 1))) + Z.of_nat index_in_group) + Z.of_nat off * Z.of_nat (i + 1)));
          do y <- get cps (Z.to_nat (u32 (u32 (Z.of_nat m * u32 (Z.of_nat off * (Z.of_nat p + 1))) + Z.of_nat index_in_group) + Z.of_nat off * (Z.of_nat (i + 1) - 1)));
          do cps <- set cps (Z.to_nat gi)
             (vadd (vscale (ssub s1 (smul (sofnat (i + 1)) (sdiv s1 (sofnat (p + 1))))) x)
                   (vscale (smul (sofnat (i + 1)) (sdiv s1 (sofnat (p + 1)))) y));
          Ok (cps, u32 (gi - 1))) m (i + 1) st3) as (st4 & E4 & HI4).
      { auto. } { lia. }
      { replace (S (i + 1)) with (S (S i)) by lia. exact HI3. }
      { intros a c gi Ha (HL & Hg & HN & HO). simpl in HL, HO. fold n' in HL.
        rewrite (group_index off p cnt c0) by auto.
        replace (Z.to_nat (Z.of_nat (a + off * ((p + 1) * m)) + Z.of_nat off * Z.of_nat (i + 1)))
          with (a + off * (i + 1 + (p + 1) * m)) by lia.
        replace (Z.to_nat (Z.of_nat (a + off * ((p + 1) * m)) + Z.of_nat off * (Z.of_nat (i + 1) - 1)))
          with (a + off * (i + (p + 1) * m)) by lia.
        pose proof (index_small off p cnt c0 Hoff HL0 Hsm m a (i + 1) Hm Ha ltac:(lia)).
        pose proof (index_small off p cnt c0 Hoff HL0 Hsm m a i Hm Ha ltac:(lia)).
        rewrite (get_ok v0) by lia. cbn [bind]. rewrite (get_ok v0) by lia. cbn [bind].
        rewrite !HO by nia.
        assert (Hlt : a + off * (i + 1 + (p + 2) * m) < n').
        { subst n'. assert (off * (p + 2) * S m <= off * (p + 2) * cnt) by (apply Nat.mul_le_mono_l; lia). nia. }
        fold n'. rewrite nth_elev_points by (auto; lia). rewrite elev_mid by lia. cbv zeta.
        replace (i + 1 + (p + 1) * m) with (i + 1 + S p * m) by lia.
        replace (i + 1 - 1 + S p * m) with (i + (p + 1) * m) by lia. reflexivity. }
      exists st4. split; [exact E4|]. replace (S i) with (i + 1) by lia. exact HI4. }
    rewrite E2. cbn [bind].
    (* first layer *)
    edestruct (layer_loop off p cnt c0 Hoff HL0 Hsm
      (fun index_in_group '(cps, gi) =>
        do x <- get cps (Z.to_nat (u32 (u32 (Z.of_nat m * u32 (Z.of_nat off * (Z.of_nat p + 1))) + Z.of_nat index_in_group)));
        do cps <- set cps (Z.to_nat gi) x;
        Ok (cps, u32 (gi - 1))) m 0 st2) as (st5 & E5 & HI5).
    { auto. } { lia. }
    { exact HI2. }
    { intros a c gi Ha (HL & Hg & HN & HO). simpl in HL, HO. fold n' in HL.
      rewrite (group_index off p cnt c0) by auto. rewrite Nat2Z.id.
      pose proof (index_small off p cnt c0 Hoff HL0 Hsm m a 0 Hm Ha ltac:(lia)) as Hx.
      rewrite Nat.add_0_l in Hx.
      rewrite (get_ok v0) by lia. cbn [bind].
      rewrite HO by nia.
      assert (Hlt : a + off * (0 + (p + 2) * m) < n').
      { subst n'. assert (off * (p + 2) * S m <= off * (p + 2) * cnt) by (apply Nat.mul_le_mono_l; lia). nia. }
      fold n'. rewrite nth_elev_points by (auto; lia). rewrite elev_0.
      replace (0 + S p * m) with ((p + 1) * m) by lia. reflexivity. }
    exists st5. split; [exact E5|exact HI5].
Qed.

(** The Bernstein side of elevation. *)
Lemma elev_bernstein p j (x : T) :
  j <= p ->
  ssum (S (p + 1)) (fun i => smul (bernstein (p + 1) i x) (elev_coef p i j)) = bernstein p j x.
Proof.
  intros Hj. unfold elev_coef.
  set (q := sofnat (p + 1) : T).
  assert (Hq : q <> s0) by (apply sofnat_neq0; lia).
  rewrite (ssum_ext _ _ (fun i => sadd
    (if i =? j then smul (bernstein (p + 1) j x) (ssub s1 (smul (sofnat j) (sdiv s1 q))) else s0)
    (if i =? S j then smul (bernstein (p + 1) (S j) x) (smul (sofnat (S j)) (sdiv s1 q)) else s0))).
  - rewrite ssum_add.
    rewrite (ssum_single _ j); [|lia|intros i Hi Hne; now rewrite (proj2 (Nat.eqb_neq i j))].
    rewrite (ssum_single _ (S j)); [|lia|intros i Hi Hne; now rewrite (proj2 (Nat.eqb_neq i (S j)))].
    rewrite !Nat.eqb_refl.
    pose proof (bernstein_elev p j x Hj) as E.
    rewrite sofnat_sub in E by lia.
    replace (S p) with (p + 1) in E by lia. fold q in E.
    apply (smul_cancel _ _ q Hq). rewrite E. field. exact Hq.
  - intros i Hi. destruct (Nat.eqb_spec i j) as [->|].
    + rewrite Nat.eqb_refl. rewrite (proj2 (Nat.eqb_neq (S j) j)), (proj2 (Nat.eqb_neq j (S j))) by lia. ring.
    + rewrite (proj2 (Nat.eqb_neq j i)) by auto.
      destruct (Nat.eqb_spec i (S j)) as [->|].
      * rewrite Nat.eqb_refl. ring.
      * rewrite (proj2 (Nat.eqb_neq (S j) i)) by auto. ring.
Qed.

Theorem elev_points_bezier degs k (xs : list T) (c : list V) :
  k < length degs -> length xs = length degs -> length c = n_coeffs degs ->
  let p := nth k degs 0 in
  let degs' := upd_list degs k (p + 1) in
  bezier degs' xs (fun i => nth i (elev_points (n_coeffs (firstn k degs)) p (n_coeffs degs') c) v0) =
  bezier degs xs (fun i => nth i c v0).
Proof.
  intros Hk HX HC p degs'.
  assert (E1 : degs' = firstn k degs ++ (p + 1) :: skipn (S k) degs) by (apply upd_split; auto).
  assert (E2 : degs = firstn k degs ++ p :: skipn (S k) degs) by (apply split_nth; auto).
  assert (E3 : xs = firstn k xs ++ nth k xs s0 :: skipn (S k) xs) by (apply split_nth; lia).
  assert (Hxp : length (firstn k xs) = length (firstn k degs)) by (rewrite !firstn_length; lia).
  clearbody degs'. clearbody p.
  set (pre := firstn k degs) in *. set (post := skipn (S k) degs) in *.
  rewrite E1, E3. rewrite E2. clearbody pre post.
  apply (bezier_dirop pre p (p + 1) post _ _ _ _ _ _ (elev_coef p)).
  - exact Hxp.
  - intros a i m Ha Hi Hm.
    replace (S (p + 1)) with (p + 2) by lia.
    rewrite nth_elev_points; auto; try lia.
    rewrite n_coeffs_app, n_coeffs_cons.
    assert (a + n_coeffs pre * (i + (p + 2) * m) < n_coeffs pre * ((p + 2) * S m)) by nia.
    assert (n_coeffs pre * ((p + 2) * S m) <= n_coeffs pre * ((p + 2) * n_coeffs post))
      by (apply Nat.mul_le_mono_l, Nat.mul_le_mono_l; lia).
    replace (S (p + 1)) with (p + 2) by lia. lia.
  - intros j Hj. apply elev_bernstein. auto.
Qed.

End Elev.
