(** Binomial table, Bernstein polynomials and RecursiveCombine. *)
From Coq Require Import Arith Lia List ZArith NArith Bool Ring Field.
From Verif Require Import Prelude Scalar Spec SpecSpline Sums ModelBasis.
Import ListNotations.

(** ** Triangular numbers *)
Fixpoint tri (n : nat) : nat := match n with O => 0 | S n' => tri n' + S n' end.

Lemma tri_eq n : n * (n + 1) / 2 = tri n.
Proof.
  assert (H : n * (n + 1) = tri n * 2) by (induction n; simpl; lia).
  rewrite H. apply Nat.div_mul. lia.
Qed.
Lemma tri_S n : tri (S n) = tri n + S n. Proof. reflexivity. Qed.
Lemma tri_mono a b : a <= b -> tri a <= tri b.
Proof. induction 1; simpl; lia. Qed.

(** ** No overflow below degree 68 *)
Fixpoint pascal_next (prev : N) (row : list N) : list N :=
  match row with
  | [] => [prev]
  | a :: t => (prev + a)%N :: pascal_next a t
  end.
Fixpoint pascal_row (n : nat) : list N :=
  match n with O => [1%N] | S n' => pascal_next 0%N (pascal_row n') end.

Lemma pascal_next_length p l : length (pascal_next p l) = S (length l).
Proof. revert p; induction l; simpl; auto. Qed.
Lemma pascal_row_length n : length (pascal_row n) = S n.
Proof. induction n; auto. simpl. now rewrite pascal_next_length, IHn. Qed.
Lemma nth_pascal_next p l j :
  nth j (pascal_next p l) 0%N = (nth j (p :: l) 0 + nth j l 0)%N.
Proof.
  revert p j; induction l; simpl; intros.
  - destruct j as [|[|j]]; simpl; lia.
  - destruct j; [lia|]. rewrite IHl. reflexivity.
Qed.
Lemma nth_pascal n j : nth j (pascal_row n) 0%N = binom n j.
Proof.
  revert j; induction n; intros j.
  - destruct j as [|[|j]]; reflexivity.
  - change (pascal_row (S n)) with (pascal_next 0%N (pascal_row n)). rewrite nth_pascal_next.
    destruct j; simpl.
    + rewrite IHn, binom_n_0. lia.
    + rewrite !IHn. reflexivity.
Qed.

Lemma pascal_bound :
  forallb (fun n => forallb (fun x => (x <? 2 ^ 64)%N) (pascal_row n)) (seq 0 68) = true.
Proof. vm_compute. reflexivity. Qed.

Lemma binom_bound n j : n < 68 -> (binom n j < 2 ^ 64)%N.
Proof.
  intros Hn. rewrite <- nth_pascal.
  destruct (Nat.lt_ge_cases j (length (pascal_row n))) as [Hj|Hj].
  - pose proof pascal_bound as H. rewrite forallb_forall in H.
    specialize (H n). rewrite in_seq in H. specialize (H ltac:(lia)).
    rewrite forallb_forall in H. apply N.ltb_lt, H, nth_In; auto.
  - rewrite nth_overflow by auto. reflexivity.
Qed.

Lemma calculate_table_ok maxb :
  1 <= maxb <= 68 ->
  exists t, calculate_table maxb = Ok t /\ length t = tri maxb /\
    forall n j, n < maxb -> j <= n -> nth (tri n + j) t 0%N = binom n j.
Proof.
  intros HB. unfold calculate_table, n_values. rewrite tri_eq.
  assert (Hlt : forall i j, i < maxb -> j <= i -> tri i + j < tri maxb).
  { intros i j Hi Hj. pose proof (tri_mono (S i) maxb Hi). simpl in *. lia. }
  rewrite set_ok by (rewrite repeat_length; specialize (Hlt 0 0); simpl in *; lia).
  rewrite bind_Ok.
  edestruct (for_up_inv (fun i (t : list N) => length t = tri maxb /\
      forall n j, n < i -> j <= n -> nth (tri n + j) t 0%N = binom n j))
    as (t & E & HL & HN).
  3:{ rewrite E. exists t. auto. }
  - rewrite length_upd, repeat_length. split; auto. lia.
  - intros i t Hi (HL & HN). rewrite tri_eq.
    edestruct (for_up_inv (fun j (t : list N) => length t = tri maxb /\
        (forall n j', n < i -> j' <= n -> nth (tri n + j') t 0%N = binom n j') /\
        (forall j', j' < j -> j' <= i -> nth (tri i + j') t 0%N = binom i j')))
      as (t' & E & HL' & HN1 & HN2).
    3:{ rewrite E. exists t'. split; [reflexivity|]. split; [exact HL'|].
        intros n j Hn Hj. destruct (Nat.eq_dec n i) as [->|].
        - apply HN2; lia.
        - apply HN1; lia. }
    + split; [auto|split; [auto|intros; lia]].
    + clear t HL HN. intros j t Hj (HL & HN1 & HN2).
      assert (Hin : tri i + j < length t) by (rewrite HL; apply Hlt; lia).
      assert (Hstep : forall x, x = binom i j ->
        exists a', set t (tri i + j) x = Ok a' /\ length a' = tri maxb /\
          (forall n j', n < i -> j' <= n -> nth (tri n + j') a' 0%N = binom n j') /\
          (forall j', j' < S j -> j' <= i -> nth (tri i + j') a' 0%N = binom i j')).
      { intros x ->. rewrite set_ok by auto. eexists; split; [reflexivity|].
        rewrite length_upd. split; [auto|]. split.
        - intros n j' Hn Hj'. rewrite nth_upd_other; auto.
          pose proof (tri_mono (S n) i Hn). simpl in *. lia.
        - intros j' Hj' Hj''. rewrite nth_upd by auto.
          destruct (Nat.eqb_spec (tri i + j') (tri i + j)).
          + f_equal. lia.
          + apply HN2; lia. }
      destruct (Nat.eqb_spec i j) as [<-|Hne]; cbn [orb].
      { apply Hstep. now rewrite binom_nn. }
      destruct (Nat.eqb_spec j 0) as [->|Hj0].
      { apply Hstep. now rewrite binom_n_0. }
      assert (Hi1 : exists i', i = S i') by (exists (i - 1); lia). destruct Hi1 as [i' ->].
      assert (Hj1 : exists j', j = S j') by (exists (j - 1); lia). destruct Hj1 as [j' ->].
      rewrite tri_S in *.
      replace (tri i' + S i' - S i' + S j' - 1) with (tri i' + j') by lia.
      replace (tri i' + S i' - S i' + S j') with (tri i' + S j') by lia.
      rewrite (get_ok 0%N) by lia. rewrite (get_ok 0%N) by lia. cbn [bind].
      apply Hstep. rewrite !HN1 by lia. unfold addN64.
      rewrite <- binom_SS. apply N.mod_small. apply binom_bound. lia.
Qed.

Lemma choose_ok maxb n i :
  n < maxb -> maxb <= 68 -> i <= n -> choose maxb n i = Ok (binom n i).
Proof.
  intros Hn HB Hi. unfold choose. rewrite (proj2 (Nat.ltb_lt n maxb)) by auto. cbn [assert_ bind].
  destruct (calculate_table_ok maxb) as (t & -> & HL & HN); [lia|]. cbn [bind].
  rewrite tri_eq. rewrite (get_ok 0%N).
  - now rewrite HN by auto.
  - rewrite HL. pose proof (tri_mono (S n) maxb Hn). simpl in *. lia.
Qed.

Lemma choose_assert maxb n i : maxb <= n -> choose maxb n i = AssertFail.
Proof. intros. unfold choose. rewrite (proj2 (Nat.ltb_ge n maxb)) by auto. reflexivity. Qed.

(** ** Bernstein polynomials *)
Section Bern.
Context (MAXB : nat) (HB : MAXB <= 68).
Context {T : Type} {o : SOps T} {F : SField T}.
Add Field Tfield : (@sf_th T o F).
Local Open Scope s_scope.

Lemma nth_app_last {A} (d : A) l x : nth (length l) (l ++ [x]) d = x.
Proof. rewrite app_nth2, Nat.sub_diag; auto. Qed.

Lemma BernsteinEvaluate_ok p (x : T) :
  (p < MAXB)%nat ->
  BernsteinEvaluate MAXB p x = Ok (map (fun j => bernstein p j x) (seq 0 (S p))).
Proof.
  intros Hp. unfold BernsteinEvaluate.
  rewrite (proj2 (Nat.ltb_lt p MAXB)) by auto. cbn [assert_ bind].
  edestruct (for_up_inv (fun i '((ev, c) : list T * T) =>
      c = spow x i /\ length ev = i /\
      forall j, (j < i)%nat -> nth j ev s0 = sofN (binom p j) * spow x j))
    as ([ev c] & E & Hc & HL & HN).
  3:{ rewrite E. cbn [bind]. clear E.
    edestruct (for_up_inv (fun i '((ev', c') : list T * T) =>
      c' = spow (1 - x) i /\ length ev' = S p /\
      forall j, (j <= p)%nat -> nth j ev' s0 =
        if (p - j <? i)%nat then bernstein p j x else sofN (binom p j) * spow x j))
    as ([ev' c'] & E & Hc' & HL' & HN').
    3:{ rewrite E. cbn [bind]. f_equal. apply (list_ext s0).
        - rewrite map_length, seq_length. auto.
        - intros j Hj. rewrite HN' by lia.
          rewrite (proj2 (Nat.ltb_lt _ _)) by lia.
          rewrite (nth_indep _ s0 (bernstein p 0%nat x)) by (rewrite map_length, seq_length; lia).
          rewrite (map_nth (fun j => bernstein p j x)). rewrite seq_nth by lia. reflexivity. }
    - split; [reflexivity|]. split; [lia|]. intros j Hj. rewrite HN by lia. reflexivity.
    - intros i [ev1 c1] Hi (-> & HL1 & HN1).
      rewrite (get_ok s0) by lia. cbn [bind]. rewrite set_ok by lia. cbn [bind].
      eexists; split; [reflexivity|]. split; [simpl; ring|].
      rewrite length_upd. split; [auto|]. intros j Hj. rewrite nth_upd by lia.
      destruct (Nat.eqb_spec j (p - i)) as [->|Hne].
      + rewrite HN1 by lia. replace (p - (p - i))%nat with i by lia.
        rewrite Nat.ltb_irrefl. rewrite (proj2 (Nat.ltb_lt i (S i))) by lia.
        unfold bernstein. replace (p - (p - i))%nat with i by lia. ring.
      + rewrite HN1 by lia.
        destruct (Nat.ltb_spec (p - j) i), (Nat.ltb_spec (p - j) (S i)); auto; lia. }
  - split; [reflexivity|]. split; [reflexivity|]. intros; lia.
  - intros i [ev c] Hi (-> & HL & HN). rewrite choose_ok by lia. cbn [bind].
    eexists; split; [reflexivity|]. split; [simpl; ring|].
    rewrite app_length; simpl. split; [lia|]. intros j Hj.
    destruct (Nat.eq_dec j i) as [->|].
    + rewrite <- HL at 1. now rewrite nth_app_last.
    + rewrite app_nth1 by lia. apply HN. lia.
Qed.

Lemma BernsteinEvaluate_assert p (x : T) :
  (MAXB <= p)%nat -> BernsteinEvaluate MAXB p x = AssertFail.
Proof.
  intros. unfold BernsteinEvaluate. rewrite (proj2 (Nat.ltb_ge p MAXB)) by auto. reflexivity.
Qed.

End Bern.

(** ** RecursiveCombine *)
(** The value at position [i] of the tensor product of [fs], first factor fastest. *)
Section Combine.
Context {T : Type} {o : SOps T} {F : SField T}.
Add Field Tfield3 : (@sf_th T o F).

Definition sizes (fs : list (list T)) : nat := fold_right Nat.mul 1 (map (@length T) fs).

Fixpoint tensor_at (fs : list (list T)) (i : nat) : T :=
  match fs with
  | [] => s1
  | f :: fs' => smul (nth (i mod length f) f s0) (tensor_at fs' (i / length f))
  end.

Lemma seq_shift_by s n : seq s n = map (fun a => s + a) (seq 0 n).
Proof.
  revert s; induction n; simpl; intros; auto. rewrite Nat.add_0_r. f_equal.
  rewrite IHn, <- (seq_shift n 0), map_map. apply map_ext. intros. lia.
Qed.

Lemma sizes_app l m : sizes (l ++ m) = sizes l * sizes m.
Proof. unfold sizes. induction l; simpl; [lia|]. rewrite IHl. lia. Qed.

Lemma tensor_at_snoc fs f a i :
  a < sizes fs -> i < length f ->
  tensor_at (fs ++ [f]) (a + sizes fs * i) = smul (tensor_at fs a) (nth i f s0).
Proof.
  revert a; induction fs as [|g fs IH]; intros a Ha Hi.
  - unfold sizes in Ha. simpl in *. replace (a + (i + 0)) with i by lia.
    rewrite Nat.mod_small by lia. ring.
  - unfold sizes in *. simpl in *. fold (sizes fs) in *.
    assert (Hg : length g <> 0) by nia.
    assert (Ha' : a / length g < sizes fs) by (apply Nat.div_lt_upper_bound; lia).
    replace (a + length g * sizes fs * i) with (a + (sizes fs * i) * length g) by lia.
    rewrite Nat.mod_add, Nat.div_add by auto.
    rewrite IH by auto. ring.
Qed.

Lemma RecursiveCombine_aux fs k :
  k < length fs -> forall result c,
  RecursiveCombine_ k fs result c =
  Ok (result ++ map (fun i => smul c (tensor_at (firstn (S k) fs) i))
        (seq 0 (sizes (firstn (S k) fs)))).
Proof.
  induction k as [|k IH]; intros Hk result c.
  - cbn [RecursiveCombine_]. rewrite (get_ok []) by auto. cbn [bind].
    destruct fs as [|f fs]; simpl in Hk; [lia|]. cbn [nth firstn].
    edestruct (for_up_inv (fun n r => r = result ++
       map (fun i => smul c (tensor_at [f] i)) (seq 0 n))) as (r & E & ->).
    3:{ rewrite E. f_equal. f_equal. f_equal. unfold sizes; simpl. f_equal. lia. }
    + simpl. now rewrite app_nil_r.
    + intros i r Hi ->. rewrite (get_ok s0) by lia. cbn [bind]. eexists; split; [reflexivity|].
      rewrite seq_S, map_app, app_assoc. simpl. do 2 f_equal.
      rewrite Nat.mod_small by lia. ring.
  - cbn [RecursiveCombine_]. rewrite (get_ok []) by auto. cbn [bind].
    set (f := nth (S k) fs []).
    assert (Efs : firstn (S (S k)) fs = firstn (S k) fs ++ [f]).
    { clear - Hk. subst f. revert fs Hk. generalize (S k) as n.
      induction n; destruct fs; simpl; intros; try lia; auto. f_equal. apply IHn. lia. }
    set (A := sizes (firstn (S k) fs)) in *.
    edestruct (for_up_inv (fun n r => r = result ++
       map (fun i => smul c (tensor_at (firstn (S k) fs ++ [f]) i)) (seq 0 (A * n))))
      as (r & E & ->).
    3:{ rewrite E. f_equal. f_equal. rewrite Efs, sizes_app. fold A. unfold sizes; simpl.
        do 2 f_equal. lia. }
    + rewrite Nat.mul_0_r. simpl. now rewrite app_nil_r.
    + intros i r Hi ->. rewrite (get_ok s0) by lia. cbn [bind].
      rewrite IH by lia. eexists; split; [reflexivity|].
      rewrite <- app_assoc. f_equal. rewrite Nat.mul_succ_r, seq_app, map_app. f_equal.
      fold A. rewrite Nat.add_0_l, (seq_shift_by (A * i)), map_map.
      apply map_ext_in. intros a Ha. apply in_seq in Ha.
      rewrite (Nat.add_comm _ a). unfold A.
      rewrite tensor_at_snoc by (fold A; lia). ring.
Qed.

Lemma RecursiveCombine_ok fs :
  fs <> [] ->
  RecursiveCombine fs = Ok (map (tensor_at fs) (seq 0 (sizes fs))).
Proof.
  intros H. unfold RecursiveCombine.
  assert (0 < length fs) by (destruct fs; simpl; [congruence|lia]).
  rewrite RecursiveCombine_aux by lia.
  replace (S (length fs - 1)) with (length fs) by lia. rewrite firstn_all. simpl app.
  f_equal. apply map_ext. intros. ring.
Qed.
End Combine.
