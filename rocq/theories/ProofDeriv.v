(** Derivatives: the basis derivatives, EvaluateDerivative and the derivative
    spline all compute the same tensor-product sum. *)
From Coq Require Import Arith Lia List ZArith NArith Bool Ring Field.
From Verif Require Import Prelude Scalar Spec SpecSpline Sums Coord ModelBasis ModelSpline
  ProofIndex ProofBasis ProofEval ProofElevate ProofArith.
Import ListNotations.
Local Open Scope nat_scope.

Section Bern.
Context {T : Type} {o : SOps T} {F : SField T}.
Add Field Tfield : (@sf_th T o F).

Definition sgn (n : nat) : T := if Nat.even n then s1 else sopp s1.
Lemma sgn_S n : sgn (S n) = sopp (sgn n).
Proof. unfold sgn. rewrite Nat.even_succ, <- Nat.negb_even. destruct (Nat.even n); simpl; ring. Qed.
Lemma sgn_add m n : sgn (m + n) = smul (sgn m) (sgn n).
Proof. induction m; [unfold sgn at 2; simpl; ring|]. change (S m + n) with (S (m + n)). rewrite !sgn_S, IHm. ring. Qed.
Lemma sgn_sq n : smul (sgn n) (sgn n) = s1.
Proof. unfold sgn. destruct (Nat.even n); ring. Qed.

(** p (p-1) ... (p-k+1) *)
Fixpoint ffall (p k : nat) : T :=
  match k with 0 => s1 | S k' => smul (ffall p k') (sofnat (p - k')) end.
Lemma ffall_gt p k : p < k -> ffall p k = s0.
Proof.
  intros H. induction k; [lia|]. cbn [ffall]. destruct (Nat.eq_dec k p) as [->|].
  - rewrite Nat.sub_diag, sofnat_0. ring.
  - rewrite IHk by lia. ring.
Qed.

(** The Bernstein polynomial [i - j] of degree [q], zero if [j > i]. *)
Definition bshift (q i j : nat) (x : T) : T := if j <=? i then bernstein q (i - j) x else s0.

(** [k]-th derivative of the [i]-th Bernstein polynomial of degree [p]. *)
Definition dbern (k p i : nat) (x : T) : T :=
  smul (ffall p k) (ssum (S k) (fun j => smul (smul (sgn (k + j)) (sofN (binom k j))) (bshift (p - k) i j x))).

Lemma dbern_0 p i x : dbern 0 p i x = bernstein p i x.
Proof.
  unfold dbern, bshift. cbn [ssum ffall]. rewrite !Nat.sub_0_r. simpl (0 <=? i). cbv iota.
  unfold sgn. simpl (Nat.even _). rewrite binom_n_0, sofN_1. ring.
Qed.
Lemma dbern_gt k p i x : p < k -> dbern k p i x = s0.
Proof. intros H. unfold dbern. rewrite ffall_gt by auto. ring. Qed.

(** Recursion: differentiating once more. *)
Lemma dbern_S k p i x : dbern (S k) p i x =
  smul (ffall p k) (ssum (S k) (fun j => smul (smul (sgn (k + j)) (sofN (binom k j)))
    (smul (sofnat (p - k)) (ssub (bshift (p - k - 1) i (S j) x) (bshift (p - k - 1) i j x))))).
Proof.
  unfold dbern. cbn [ffall]. replace (p - S k) with (p - k - 1) by lia.
  set (b := fun j => bshift (p - k - 1) i j x).
  transitivity (smul (smul (ffall p k) (sofnat (p - k)))
    (ssum (S k) (fun j => smul (smul (sgn (k + j)) (sofN (binom k j))) (ssub (b (S j)) (b j))))).
  2:{ transitivity (smul (ffall p k) (smul (sofnat (p - k))
        (ssum (S k) (fun j => smul (smul (sgn (k + j)) (sofN (binom k j))) (ssub (b (S j)) (b j)))))); [ring|].
      rewrite <- (ssum_scale (S k) (sofnat (p - k))). f_equal. apply ssum_ext. intros j Hj. unfold b. ring. }
  f_equal.
  transitivity (sadd (ssum (S (S k)) (fun j => sopp (smul (smul (sgn (k + j)) (sofN (binom k j))) (b j))))
    (ssum (S (S k)) (fun j => match j with 0 => s0 | S j' => smul (smul (sgn (k + j')) (sofN (binom k j'))) (b j) end))).
  { rewrite <- ssum_add. apply ssum_ext. intros j Hj. change (S k + j) with (S (k + j)). rewrite sgn_S.
    unfold b. destruct j as [|j].
    - rewrite !binom_n_0, sofN_1. ring.
    - rewrite binom_SS, sofN_add. replace (k + S j) with (S (k + j)) by lia. rewrite sgn_S. ring. }
  rewrite (ssum_first (S k) (fun j => match j with 0 => s0 | S j' => _ end)).
  cbn [ssum]. rewrite (binom_gt k (S k)) by lia.
  transitivity (sadd (ssum (S k) (fun j => sopp (smul (smul (sgn (k + j)) (sofN (binom k j))) (b j))))
     (ssum (S k) (fun j => smul (smul (sgn (k + j)) (sofN (binom k j))) (b (S j))))).
  { cbn [ssum]. rewrite sf_ofN0. ring. }
  rewrite <- ssum_add. apply (ssum_ext (S k)). intros. ring.
Qed.

(** ** BernsteinPolynomial::EvaluateDerivative *)
Context (MAXB : nat) (HB : MAXB <= 68).

Lemma i32_u64_small z : (- 2 ^ 31 <= z < 2 ^ 31)%Z -> i32 (u64 z) = z.
Proof.
  intros H. unfold i32, u64.
  rewrite <- (Zplus_mod_idemp_l (z mod 2 ^ 64) (2 ^ 31) (2 ^ 32)).
  rewrite <- Znumtheory.Zmod_div_mod; [|lia|lia|exists (2 ^ 32)%Z; reflexivity].
  rewrite Zplus_mod_idemp_l. rewrite Z.mod_small; lia.
Qed.

Lemma ffall_loop p k : for_up 0 k (fun i v => Ok (smul v (sofnat (p - i)))) s1 = Ok (ffall p k).
Proof.
  edestruct (for_up_inv (fun i v => v = ffall p i)) as (v & E & ->).
  3:{ rewrite E. reflexivity. }
  - reflexivity.
  - intros i v Hi ->. eexists. split; reflexivity.
Qed.

Lemma BernsteinEvaluateDerivative_ok p (x : T) k : p < MAXB ->
  BernsteinEvaluateDerivative MAXB p x k = Ok (map (fun i => dbern k p i x) (seq 0 (S p))).
Proof.
  intros Hp. unfold BernsteinEvaluateDerivative.
  rewrite (proj2 (Nat.ltb_lt p MAXB)) by auto. cbn [assert_ bind].
  destruct (Nat.ltb_spec p k) as [Hk|Hk].
  { f_equal. apply (list_ext s0); [rewrite map_length, seq_length, repeat_length; lia|].
    intros i Hi. rewrite repeat_length in Hi. rewrite nth_repeat.
    rewrite nth_map_seq by lia. now rewrite dbern_gt. }
  destruct (Nat.eqb_spec k 0) as [->|Hk0].
  { rewrite BernsteinEvaluate_ok by auto. f_equal. apply map_ext. intros. now rewrite dbern_0. }
  rewrite BernsteinEvaluate_ok by (auto; lia). cbn [bind]. rewrite ffall_loop. cbn [bind].
  set (basis := map _ (seq 0 (S (p - k)))).
  assert (HLb : length basis = S (p - k)) by (unfold basis; rewrite map_length, seq_length; auto).
  assert (HNb : forall j, j <= p - k -> nth j basis s0 = bernstein (p - k) j x).
  { intros j Hj. unfold basis. rewrite nth_map_seq by lia. reflexivity. }
  edestruct (for_up_inv (fun i ev => length ev = S p /\ forall j, j <= p -> nth j ev s0 =
    if j <? i then dbern k p j x else s0)) as (ev & E & HL & HN).
  3:{ rewrite E. f_equal. apply (list_ext s0); [rewrite map_length, seq_length; lia|].
      intros i Hi. rewrite nth_map_seq by lia. rewrite HN by lia. rewrite (proj2 (Nat.ltb_lt i _)) by lia. auto. }
  - rewrite repeat_length. split; [lia|]. intros j Hj. simpl. apply nth_repeat.
  - intros i ev Hi (HL & HN). cbv beta.
    assert (Hmin : Z.to_nat (Z.max 0 (i32 (u64 (Z.of_nat i + Z.of_nat k - Z.of_nat p)))) = i + k - p).
    { rewrite i32_u64_small by lia. lia. }
    rewrite Hmin. set (kmin := i + k - p).
    set (term := fun j => smul (smul (sgn (k + j)) (sofN (binom k j))) (bshift (p - k) i j x)).
    edestruct (for_up_inv (fun m ev' => length ev' = S p /\ (forall j, j <> i -> nth j ev' s0 = nth j ev s0) /\
      nth i ev' s0 = ssum m term)) as (ev' & E & HL' & HO & HI).
    3:{ rewrite E. cbn [bind]. rewrite (get_ok s0) by lia. cbn [bind]. rewrite set_ok by lia.
        eexists. split; [reflexivity|]. rewrite length_upd. split; auto. intros j Hj. rewrite nth_upd by lia.
        destruct (Nat.eqb_spec j i) as [->|Hne].
        - rewrite (proj2 (Nat.ltb_lt i (S i))) by lia. rewrite HI.
          replace (kmin + (S (Nat.min i k) - kmin)) with (S (Nat.min i k)) by (unfold kmin; lia).
          unfold dbern. fold term.
          replace (S k) with (S (Nat.min i k) + (k - Nat.min i k)) by lia.
          rewrite ssum_app. rewrite (ssum_zero (k - Nat.min i k)); [ring|].
          intros j Hj'. unfold term, bshift. rewrite (proj2 (Nat.leb_gt _ i)) by lia. ring.
        - rewrite HO by auto. rewrite HN by auto.
          destruct (Nat.ltb_spec j i), (Nat.ltb_spec j (S i)); auto; lia. }
    + split; auto. split; auto. rewrite HN by lia. rewrite (proj2 (Nat.ltb_ge i i)) by lia.
      symmetry. apply ssum_zero. intros j Hj. unfold term, bshift, kmin in *.
      rewrite (proj2 (Nat.leb_le j i)) by lia. rewrite bernstein_gt by lia. ring.
    + intros j ev' Hj (HL' & HO & HI). cbv beta. unfold kmin in Hj. rewrite choose_ok by lia. cbn [bind].
      rewrite (get_ok s0) by lia. cbn [bind]. rewrite (get_ok s0) by lia. cbn [bind].
      rewrite set_ok by lia. eexists. split; [reflexivity|]. rewrite length_upd. split; auto. split.
      * intros j' Hne. rewrite nth_upd_other by auto. auto.
      * rewrite nth_upd_same by lia. rewrite HI, HNb by lia. cbn [ssum]. f_equal.
        unfold term, bshift. rewrite (proj2 (Nat.leb_le j i)) by lia.
        rewrite (Nat.add_comm j k). unfold sgn. rewrite <- Nat.negb_even. destruct (Nat.even (k + j)); cbn [negb]; ring.
Qed.
End Bern.

(** ** Splines *)
Section Splines.
Context {T V : Type} {o : SOps T} {ov : VOps T V} {F : SField T} {M : VMod T V}.
Add Field Tfield2 : (@sf_th T o F).
Add Ring Ering : (@ext_ring T V o ov F M).
Ltac vring := to_ext; ring.

(** Tensor-product sum with the derivative basis; [G] takes multi-indices. *)
Fixpoint dmbez (ks degs : list nat) (xs : list T) (G : list nat -> V) : V :=
  match ks, degs, xs with
  | k :: ks', p :: degs', x :: xs' =>
      vsum (S p) (fun j => vscale (dbern k p j x) (dmbez ks' degs' xs' (fun mi => G (j :: mi))))
  | _, _, _ => G []
  end.

Lemma dmbez_ext ks degs xs (G H : list nat -> V) :
  length ks = length degs -> length xs = length degs ->
  (forall mi, valid_index degs mi -> G mi = H mi) -> dmbez ks degs xs G = dmbez ks degs xs H.
Proof.
  revert ks xs G H; induction degs as [|p degs IH]; intros [|k ks] [|x xs] G H H1 H2 HE; try discriminate.
  - simpl. apply HE. constructor.
  - cbn [dmbez]. apply vsum_ext. intros j Hj. f_equal. apply IH; try (simpl in *; lia).
    intros mi Hm. apply HE. constructor; [lia|auto].
Qed.
Lemma dmbez_add ks degs xs (G H : list nat -> V) :
  dmbez ks degs xs (fun mi => vadd (G mi) (H mi)) = vadd (dmbez ks degs xs G) (dmbez ks degs xs H).
Proof.
  revert ks xs G H; induction degs as [|p degs IH]; intros [|k ks] [|x xs] G H; auto.
  cbn [dmbez]. rewrite <- vsum_add. apply vsum_ext. intros j Hj. rewrite IH. vring.
Qed.
Lemma dmbez_scale ks degs xs (c : T) (G : list nat -> V) :
  dmbez ks degs xs (fun mi => vscale c (G mi)) = vscale c (dmbez ks degs xs G).
Proof.
  revert ks xs G; induction degs as [|p degs IH]; intros [|k ks] [|x xs] G; auto.
  cbn [dmbez]. rewrite <- vsum_scale. apply vsum_ext. intros j Hj. rewrite IH. vring.
Qed.
Lemma dmbez_vsum ks degs xs n (G : nat -> list nat -> V) :
  dmbez ks degs xs (fun mi => vsum n (fun i => G i mi)) = vsum n (fun i => dmbez ks degs xs (G i)).
Proof.
  induction n; cbn [vsum].
  - transitivity (dmbez ks degs xs (fun _ => vscale s0 v0)).
    + replace (vscale (s0 : T) (v0 : V)) with (v0 : V) by vring. reflexivity.
    + rewrite (dmbez_scale ks degs xs s0 (fun _ => v0)). vring.
  - rewrite dmbez_add, IHn. reflexivity.
Qed.

(** Without differentiation it is the Bezier sum. *)
Lemma dmbez_0 degs xs (f : nat -> V) : length xs = length degs ->
  dmbez (repeat 0 (length degs)) degs xs (fun mi => f (position degs mi)) = bezier degs xs f.
Proof.
  revert xs f; induction degs as [|p degs IH]; intros [|x xs] f H; try discriminate; auto.
  cbn [length repeat dmbez]. rewrite bezier_cons. apply vsum_ext. intros j Hj. rewrite dbern_0. f_equal.
  exact (IH xs (fun g => f (j + S p * g)) ltac:(simpl in H; lia)).
Qed.

(** Zero as soon as one order exceeds the degree. *)
Lemma dmbez_gt ks degs xs (G : list nat -> V) k : length ks = length degs -> length xs = length degs ->
  k < length degs -> nth k degs 0 < nth k ks 0 -> dmbez ks degs xs G = v0.
Proof.
  revert ks xs G k; induction degs as [|p degs IH]; intros [|a ks] [|x xs] G k H1 H2 Hk Hn; try discriminate.
  { simpl in Hk; lia. }
  cbn [dmbez]. apply vsum_zero. intros j Hj. destruct k as [|k].
  - rewrite dbern_gt by exact Hn. vring.
  - rewrite (IH ks xs _ k); [vring| | | |exact Hn]; simpl in *; lia.
Qed.

(** ** EvaluateDerivative *)
Fixpoint dbasis_at (ks degs : list nat) (xs : list T) (i : nat) : T :=
  match ks, degs, xs with
  | k :: ks', p :: degs', x :: xs' =>
      smul (dbern k p (i mod S p) x) (dbasis_at ks' degs' xs' (i / S p))
  | _, _, _ => s1
  end.

Lemma dmbez_flat ks degs xs (f : nat -> V) : length ks = length degs -> length xs = length degs ->
  dmbez ks degs xs (fun mi => f (position degs mi)) =
  vsum (n_coeffs degs) (fun i => vscale (dbasis_at ks degs xs i) (f i)).
Proof.
  revert ks xs f; induction degs as [|p degs IH]; intros [|k ks] [|x xs] f H1 H2; try discriminate.
  - unfold n_coeffs. cbn [map prod fold_right vsum dmbez dbasis_at position]. now rewrite vm_1, vm_0.
  - rewrite n_coeffs_cons, vsum_mul, vsum_swap. cbn [dmbez].
    apply vsum_ext. intros j Hj.
    change (fun mi => f (position (p :: degs) (j :: mi))) with (fun mi => (fun g => f (j + S p * g)) (position degs mi)).
    rewrite IH by (simpl in *; lia).
    rewrite <- vsum_scale. apply vsum_ext. intros g Hg. cbn [dbasis_at].
    replace (j + S p * g) with (j + g * S p) by lia.
    rewrite Nat.mod_add, Nat.div_add, Nat.mod_small, Nat.div_small by lia.
    rewrite Nat.add_0_l. symmetry. apply vm_mul.
Qed.

Definition dbern_list (k p : nat) (x : T) : list T := map (fun i => dbern k p i x) (seq 0 (S p)).
Fixpoint map3 {A B C D} (f : A -> B -> C -> D) (l : list A) (m : list B) (n : list C) : list D :=
  match l, m, n with a :: l', b :: m', c :: n' => f a b c :: map3 f l' m' n' | _, _, _ => [] end.
Lemma length_map3 {A B C D} (f : A -> B -> C -> D) l m n : length m = length l -> length n = length l ->
  length (map3 f l m n) = length l.
Proof. revert m n; induction l; intros [|b m] [|c n] H H'; try discriminate; simpl in *; auto. Qed.
Lemma nth_map3 {A B C D} (f : A -> B -> C -> D) l m n i da db dc dd :
  length m = length l -> length n = length l -> i < length l ->
  nth i (map3 f l m n) dd = f (nth i l da) (nth i m db) (nth i n dc).
Proof. revert m n i; induction l; intros [|b m] [|c n] [|i] H H' Hi; try discriminate; simpl in *; try lia; auto. apply IHl; lia. Qed.

Lemma sizes_dbern ks degs xs : length ks = length degs -> length xs = length degs ->
  sizes (map3 dbern_list ks degs xs) = n_coeffs degs.
Proof.
  unfold sizes, n_coeffs. revert ks xs; induction degs; intros [|k ks] [|x xs] H1 H2; try discriminate; auto.
  simpl in *. rewrite IHdegs by lia. now rewrite map_length, seq_length.
Qed.

Lemma tensor_dbern ks degs xs i : length ks = length degs -> length xs = length degs ->
  tensor_at (map3 dbern_list ks degs xs) i = dbasis_at ks degs xs i.
Proof.
  revert ks xs i; induction degs as [|p degs IH]; intros [|k ks] [|x xs] i H1 H2; try discriminate; auto.
  cbn [map3 tensor_at dbasis_at].
  assert (HL : length (dbern_list k p x) = S p) by (unfold dbern_list; rewrite map_length, seq_length; auto).
  rewrite HL. unfold dbern_list at 1. rewrite nth_map_seq.
  - f_equal. apply IH; simpl in *; lia.
  - apply Nat.mod_upper_bound. lia.
Qed.

Context (MAXB : nat) (HB : MAXB <= 68).

Lemma DerivContributions_ok (s : spline V) xs ks :
  length xs = length (degrees s) -> length ks = length (degrees s) ->
  Forall (fun p => p < MAXB) (degrees s) ->
  BasisFunctionsDerivativeContributions MAXB s xs ks = Ok (map3 dbern_list ks (degrees s) xs).
Proof.
  intros HX HK Hp. unfold BasisFunctionsDerivativeContributions.
  edestruct (for_up_inv (fun k (fs : list (list T)) => length fs = length (degrees s) /\
    forall j, j < k -> nth j fs [] = dbern_list (nth j ks 0) (nth j (degrees s) 0) (nth j xs s0)))
    as (fs & E & HL & HN).
  3:{ rewrite E. f_equal. apply (list_ext []).
      - rewrite length_map3; lia.
      - intros i Hi. rewrite HN by lia. rewrite (nth_map3 _ _ _ _ _ 0 0 s0) by lia. reflexivity. }
  - rewrite repeat_length. split; auto. intros; lia.
  - intros k fs Hk (HL & HN). rewrite (get_ok 0) by lia. cbn [bind].
    rewrite (get_ok s0) by lia. cbn [bind]. rewrite (get_ok 0) by lia. cbn [bind].
    rewrite BernsteinEvaluateDerivative_ok by (auto; eapply Forall_forall in Hp; eauto using nth_In; apply nth_In; lia).
    cbn [bind]. rewrite set_ok by lia. eexists; split; [reflexivity|].
    rewrite length_upd. split; auto. intros j Hj. rewrite nth_upd by lia.
    destruct (Nat.eqb_spec j k) as [->|]; auto. apply HN. lia.
Qed.

Lemma EvaluateDerivative_ok (s : spline V) xs ks :
  wf s -> length xs = length (degrees s) -> length ks = length (degrees s) ->
  Forall (fun p => p < MAXB) (degrees s) ->
  EvaluateDerivative MAXB s xs ks =
  Ok (dmbez ks (degrees s) xs (fun mi => nth (position (degrees s) mi) (control_points s) v0)).
Proof.
  intros Hw HX HK Hp. unfold EvaluateDerivative, BasisFunctionsDerivatives.
  rewrite DerivContributions_ok by auto. cbn [bind]. rewrite RecursiveCombine_ok.
  2:{ pose proof (wf_dim s Hw). destruct ks, (degrees s), xs; simpl in *; try lia; discriminate. }
  cbn [bind]. rewrite sizes_dbern by auto. destruct Hw as (Hd & Hn & Ho & Hc).
  rewrite combine_points_ok by (rewrite map_length, seq_length; lia).
  rewrite map_length, seq_length. f_equal.
  rewrite (dmbez_flat ks (degrees s) xs (fun i => nth i (control_points s) v0)) by auto.
  apply vsum_ext. intros i Hi. f_equal. rewrite nth_map_seq by auto. apply tensor_dbern; auto.
Qed.
End Splines.
