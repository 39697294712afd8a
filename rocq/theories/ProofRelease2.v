(** What happens without assertions when one of them would have failed. *)
From Coq Require Import Arith Lia List ZArith NArith Bool Ascii String Reals.
From Verif Require Import Prelude Scalar Spec SpecSpline ModelBasis ModelSpline ModelRational ModelBase64 ModelAD ModelRelease SpecRelease
  ProofIndex ProofBasis ProofEval ProofDeriv ProofAD ProofRelease ClaimsN ClaimsR.
Import ListNotations.
Local Open Scope nat_scope.
Local Notation length := List.length.

Definition ok_or_ub {A} (m : res A) : Prop := is_ok m \/ m = UB.
Lemma ou_ok {A} (a : A) : ok_or_ub (Ok a).
Proof. left. exists a. reflexivity. Qed.
Lemma ou_bind {A B} (m : res A) (k : A -> res B) : ok_or_ub m -> (forall x, m = Ok x -> ok_or_ub (k x)) -> ok_or_ub (bind m k).
Proof. intros [(x & ->) | ->] H; [cbn; auto|right; reflexivity]. Qed.
Lemma ou_get {A} (l : list A) i : ok_or_ub (get l i).
Proof. unfold get. destruct (nth_error l i); [apply ou_ok|right; reflexivity]. Qed.
Lemma ou_set {A} (l : list A) i x : ok_or_ub (set l i x).
Proof. unfold set. destruct (i <? length l); [apply ou_ok|right; reflexivity]. Qed.
Lemma ou_for {A} n : forall lo (f : nat -> A -> res A) a, (forall i x, ok_or_ub (f i x)) -> ok_or_ub (for_up lo n f a).
Proof. induction n; intros lo f a H; cbn [for_up]; [apply ou_ok|]. apply ou_bind; auto. Qed.
Lemma ou_not {A} (m : res A) : ok_or_ub m -> (forall x, m <> Ok x) -> m = UB.
Proof. intros [(x & ->) | ->] H; [elim (H x)|]; reflexivity. Qed.
Lemma for_up_at {A} (P : nat -> A -> Prop) (f : nat -> A -> res A) n : forall lo a r, P lo a ->
  (forall i x y, lo <= i < lo + n -> P i x -> f i x = Ok y -> P (S i) y) -> for_up lo n f a = Ok r ->
  forall i, lo <= i < lo + n -> exists x y, P i x /\ f i x = Ok y.
Proof.
  induction n; intros lo a r Ha HS E i Hi; [lia|]. cbn [for_up] in E. apply bind_ok in E. destruct E as (y & E1 & E2).
  destruct (Nat.eq_dec i lo) as [->|Hne]; [eauto|]. apply (IHn (S lo) y r); auto; [apply (HS lo a y); auto; lia| |lia]. intros j x z Hj. apply HS. lia.
Qed.
Lemma set_len {A} (l : list A) i x r : set l i x = Ok r -> length r = length l.
Proof. unfold set. destruct (i <? length l); [|discriminate]. intros E. injection E as <-. apply length_upd. Qed.
Lemma for_len {A} n : forall lo (f : nat -> list A -> res (list A)) a r,
  (forall i x y, f i x = Ok y -> length y = length x) -> for_up lo n f a = Ok r -> length r = length a.
Proof.
  induction n; intros lo f a r H E; cbn [for_up] in E; [injection E as <-; reflexivity|]. apply bind_ok in E. destruct E as (y & E1 & E2).
  rewrite (IHn _ _ _ _ H E2). eauto.
Qed.

Lemma for_len_at {A} (f : nat -> list A -> res (list A)) n lo a r i : (forall i x y, f i x = Ok y -> length y = length x) ->
  for_up lo n f a = Ok r -> lo <= i < lo + n -> exists x y, length x = length a /\ f i x = Ok y.
Proof.
  intros H E Hi. refine (for_up_at (fun _ x => length x = length a) f n lo a r eq_refl _ E i Hi).
  intros j x y _ Hx Hy. rewrite (H _ _ _ Hy). exact Hx.
Qed.

Section Eval.
Context {T V : Type} {o : SOps T} {ov : VOps T V}.

(** One direction of [Evaluate]. *)
Definition step_j (factor : T) (off offset j : nat) (cps : list V) : res (list V) :=
  do a <- get cps (j * off + offset);
  do b <- get cps ((j + 1) * off + offset);
  set cps (j * off + offset) (vadd (vscale (ssub s1 factor) a) (vscale factor b)).
Definition step_dir (factor : T) (off p ctps : nat) (cps : list V) : res (list V) :=
  for_up 0 ctps (fun sp cps => for_up 0 (p + 1) (fun i cps => for_up 0 (p - i) (fun j cps =>
    step_j factor off (off * (p + 1) * sp) j cps) cps) cps) cps.
Lemma Evaluate_steps (s : spline V) xs : Evaluate s xs =
  (do '(cps, _) <- for_up 0 (length (degrees s)) (fun k '(cps, c) =>
     do factor <- get xs k; do p <- get (degrees s) k; do off <- get (index_offsets s) k;
     do cps <- step_dir factor off p (c / (p + 1)) cps; Ok (cps, c / (p + 1))) (control_points s, number_of_control_points s);
   get cps 0).
Proof. reflexivity. Qed.

Lemma step_j_len factor off offset j l r : step_j factor off offset j l = Ok r -> length r = length l.
Proof. intros E. unfold step_j in E. apply bind_ok in E. destruct E as (a & _ & E). apply bind_ok in E. destruct E as (b & _ & E). exact (set_len _ _ _ _ E). Qed.
Lemma step_dir_len factor off p c l r : step_dir factor off p c l = Ok r -> length r = length l.
Proof.
  intros E. unfold step_dir in E. revert E. apply for_len. intros sp x y. apply for_len. intros i x' y'. apply for_len. intros j x2 y2. apply step_j_len.
Qed.
Lemma step_dir_ou factor off p c l : ok_or_ub (step_dir factor off p c l).
Proof.
  unfold step_dir. apply ou_for. intros sp x. apply ou_for. intros i y. apply ou_for. intros j z. unfold step_j.
  repeat (apply ou_bind; [apply ou_get|intros ? _]). apply ou_set.
Qed.
Lemma Evaluate_ou (s : spline V) xs : ok_or_ub (Evaluate s xs).
Proof.
  rewrite Evaluate_steps. apply ou_bind.
  - apply ou_for. intros k (cps & c). repeat (apply ou_bind; [apply ou_get|intros ? _]). apply ou_bind; [apply step_dir_ou|intros; apply ou_ok].
  - intros (cps & c) _. apply ou_get.
Qed.

Lemma first_pos (degs : list nat) : Forall (fun p => p = 0) degs \/
  exists k, k < length degs /\ nth k degs 0 <> 0 /\ forall j, j < k -> nth j degs 0 = 0.
Proof.
  induction degs as [|p degs IH]; [left; constructor|]. destruct (Nat.eq_dec p 0) as [->|Hp].
  - destruct IH as [H|(k & Hk & Hn & H)]; [left; constructor; auto|]. right. exists (S k). split; [cbn; lia|]. split; [exact Hn|].
    intros [|j] Hj; [reflexivity|]. apply H. lia.
  - right. exists 0. split; [cbn; lia|]. split; [exact Hp|]. lia.
Qed.
Lemma n_coeffs_zero degs : Forall (fun p => p = 0) degs -> n_coeffs degs = 1.
Proof. induction 1 as [|p l -> _ IH]; [reflexivity|]. rewrite n_coeffs_cons, IH. reflexivity. Qed.
Lemma Evaluate_short (s : spline V) xs : number_of_control_points s = n_coeffs (degrees s) -> index_offsets s = offsets (degrees s) ->
  length (control_points s) < n_coeffs (degrees s) -> Evaluate s xs = UB.
Proof.
  intros Hn Ho HL. apply ou_not; [apply Evaluate_ou|]. intros v E. rewrite Evaluate_steps in E. apply bind_ok in E. destruct E as ((cps & c) & E & EG).
  set (L := length (control_points s)) in *. set (n := n_coeffs (degrees s)) in *.
  set (body := fun k '(cps, c) => do factor <- get xs k; do p <- get (degrees s) k; do off <- get (index_offsets s) k;
     do cps <- step_dir factor off p (c / (p + 1)) cps; Ok (cps, c / (p + 1))) in *.
  assert (HB : forall k l c l' c', body k (l, c) = Ok (l', c') -> exists factor p off, get xs k = Ok factor /\ get (degrees s) k = Ok p /\
    get (index_offsets s) k = Ok off /\ step_dir factor off p (c / (p + 1)) l = Ok l' /\ c' = c / (p + 1)).
  { intros k l c1 l' c' HB. unfold body in HB. apply bind_ok in HB. destruct HB as (factor & E1 & HB). apply bind_ok in HB. destruct HB as (p & E2 & HB).
    apply bind_ok in HB. destruct HB as (off & E3 & HB). apply bind_ok in HB. destruct HB as (l2 & E4 & HB). injection HB as <- <-. exists factor, p, off. auto 10. }
  assert (HLen : forall k l c l' c', body k (l, c) = Ok (l', c') -> length l' = length l).
  { intros k l c1 l' c' H. destruct (HB _ _ _ _ _ H) as (f & p & off & _ & _ & _ & H' & _). exact (step_dir_len _ _ _ _ _ _ H'). }
  destruct (first_pos (degrees s)) as [HZ|(k & Hk & Hp & HZ)].
  - assert (E1 : n = 1) by (apply n_coeffs_zero; auto).
    assert (HC : length cps = L).
    { refine (for_up_pci (fun _ (st : list V * nat) => length (fst st) = L) _ _ _ _ _ _ _ E); [|reflexivity].
      intros i (x & cx) (y & cy) _ HI H. cbn in *. rewrite (HLen _ _ _ _ _ H). exact HI. }
    unfold get in EG. destruct cps; [discriminate|cbn in HC; lia].
  - destruct (for_up_at (fun i (st : list V * nat) => length (fst st) = L /\ (i <= k -> snd st = n)) body (length (degrees s)) 0 (control_points s, number_of_control_points s) (cps, c) (conj eq_refl (fun _ => Hn))) with (2 := E) (i := k)
      as ((l & c1) & (l' & c2) & (HI & HI2) & H).
    + intros i (x & cx) (y & cy) Hi (H1 & H2) H. cbn in *. split; [rewrite (HLen _ _ _ _ _ H); exact H1|]. intros Hik.
      destruct (HB _ _ _ _ _ H) as (f & p & off & _ & Ep & _ & _ & ->). rewrite (get_ok 0) in Ep by lia. injection Ep as <-.
      rewrite HZ by lia. rewrite H2 by lia. cbn. apply Nat.div_1_r.
    + lia.
    + cbn in HI, HI2. specialize (HI2 (le_n k)). subst c1. destruct (HB _ _ _ _ _ H) as (f & p & off & _ & Ep & Eo & Es & _). clear H.
      rewrite (get_ok 0) in Ep by lia. injection Ep as <-. set (p := nth k (degrees s) 0) in *.
      assert (Hoff : off = 1).
      { rewrite Ho in Eo. assert (HLo : length (offsets (degrees s)) = length (degrees s)) by apply length_offsets.
        rewrite (get_ok 0), nth_offsets in Eo by lia. injection Eo as <-. apply n_coeffs_zero. apply Forall_nth. intros i d0 Hi.
        rewrite firstn_length in Hi. rewrite (nth_indep _ d0 0) by (rewrite firstn_length; lia). rewrite nth_firstn_lt by lia. apply HZ. lia. }
      assert (Hdiv : n / (p + 1) * (p + 1) = n).
      { assert (HD : n = n_coeffs (firstn k (degrees s)) * n_coeffs (skipn (S k) (degrees s)) * (p + 1)).
        { unfold n. rewrite <- (firstn_skipn k (degrees s)) at 1. rewrite n_coeffs_app. replace (skipn k (degrees s)) with (p :: skipn (S k) (degrees s)).
          - rewrite n_coeffs_cons. lia.
          - symmetry. apply (skipn_cons_nth 0). exact Hk. }
        rewrite HD. rewrite Nat.div_mul by lia. reflexivity. }
      subst off. set (m := n / (p + 1)) in *. assert (Hm : 0 < m) by (destruct m; [cbn in Hdiv; lia|lia]).
      unfold step_dir in Es.
      eapply (for_len_at _ _ _ _ _ (m - 1)) in Es; [|intros i x y; apply for_len; intros ? ? ?; apply for_len; intros ? ? ?; apply step_j_len|lia].
      destruct Es as (l1 & l1' & HL1 & Es1).
      eapply (for_len_at _ _ _ _ _ 0) in Es1; [|intros i x y; apply for_len; intros ? ? ?; apply step_j_len|lia].
      destruct Es1 as (l2 & l2' & HL2 & Es2).
      eapply (for_len_at _ _ _ _ _ (p - 1)) in Es2; [|intros i x y; apply step_j_len|lia].
      destruct Es2 as (l3 & l3' & HL3 & Es3).
      unfold step_j in Es3. apply bind_ok in Es3. destruct Es3 as (a & _ & Es3). apply bind_ok in Es3. destruct Es3 as (b & Eb & _).
      unfold get in Eb. destruct (nth_error l3 _) eqn:EN in Eb; [|discriminate]. assert (X := proj1 (nth_error_Some l3 _) ltac:(rewrite EN; discriminate)).
      nia.
Qed.

(** Surplus control points change nothing. *)
Lemma get_more {A} (l e : list A) i x : get l i = Ok x -> get (l ++ e) i = Ok x.
Proof.
  unfold get. intros H. destruct (nth_error l i) eqn:E; [|discriminate]. rewrite nth_error_app1; [rewrite E; exact H|].
  apply nth_error_Some. congruence.
Qed.
Lemma upd_more {A} (l e : list A) i x : i < length l -> upd_list (l ++ e) i x = upd_list l i x ++ e.
Proof. revert i. induction l; intros [|i] H; cbn in *; try lia; auto. f_equal. apply IHl. lia. Qed.
Lemma set_more {A} (l e : list A) i x r : set l i x = Ok r -> set (l ++ e) i x = Ok (r ++ e).
Proof.
  unfold set. destruct (Nat.ltb_spec i (length l)) as [H|H]; [|discriminate]. intros E. injection E as <-.
  rewrite (proj2 (Nat.ltb_lt _ _)) by (rewrite app_length; lia). now rewrite upd_more.
Qed.
Lemma for_more {A} (e : list A) n : forall lo (f : nat -> list A -> res (list A)) a r,
  (forall i x y, f i x = Ok y -> f i (x ++ e) = Ok (y ++ e)) -> for_up lo n f a = Ok r -> for_up lo n f (a ++ e) = Ok (r ++ e).
Proof.
  induction n; intros lo f a r H E; cbn [for_up] in *; [injection E as <-; reflexivity|]. apply bind_ok in E. destruct E as (y & E1 & E2).
  rewrite (H _ _ _ E1). cbn [bind]. apply IHn; auto.
Qed.
Lemma step_dir_more factor off p c l e r : step_dir factor off p c l = Ok r -> step_dir factor off p c (l ++ e) = Ok (r ++ e).
Proof.
  unfold step_dir. apply for_more. intros sp x y. apply for_more. intros i x1 y1. apply for_more. intros j x2 y2 E. unfold step_j in *.
  apply bind_ok in E. destruct E as (a & Ea & E). apply bind_ok in E. destruct E as (b & Eb & E).
  rewrite (get_more _ _ _ _ Ea). cbn [bind]. rewrite (get_more _ _ _ _ Eb). cbn [bind]. apply set_more. exact E.
Qed.
Lemma Evaluate_more (s : spline V) e xs v : Evaluate s xs = Ok v ->
  Evaluate (mkSpline (degrees s) (number_of_control_points s) (index_offsets s) (control_points s ++ e)) xs = Ok v.
Proof.
  rewrite !Evaluate_steps. cbn [degrees index_offsets control_points number_of_control_points]. intros E.
  apply bind_ok in E. destruct E as ((l & c) & E & EG).
  assert (G : forall n lo a c1 r c2, for_up lo n (fun k '(cps, c) =>
     do factor <- get xs k; do p <- get (degrees s) k; do off <- get (index_offsets s) k;
     do cps <- step_dir factor off p (c / (p + 1)) cps; Ok (cps, c / (p + 1))) (a, c1) = Ok (r, c2) ->
   for_up lo n (fun k '(cps, c) =>
     do factor <- get xs k; do p <- get (degrees s) k; do off <- get (index_offsets s) k;
     do cps <- step_dir factor off p (c / (p + 1)) cps; Ok (cps, c / (p + 1))) (a ++ e, c1) = Ok (r ++ e, c2)).
  { induction n; intros lo a c1 r c2 H; cbn [for_up] in *; [injection H as <- <-; reflexivity|].
    apply bind_ok in H. destruct H as ((y & cy) & H1 & H2). apply bind_ok in H1. destruct H1 as (f & Ef & H1). apply bind_ok in H1. destruct H1 as (p & Ep & H1).
    apply bind_ok in H1. destruct H1 as (off & Eo & H1). apply bind_ok in H1. destruct H1 as (l1 & El & H1). injection H1 as <- <-.
    rewrite Ef. cbn [bind]. rewrite Ep. cbn [bind]. rewrite Eo. cbn [bind]. rewrite (step_dir_more _ _ _ _ _ e _ El). cbn [bind]. apply IHn. exact H2. }
  rewrite (G _ _ _ _ _ _ E). cbn [bind]. apply get_more. exact EG.
Qed.
End Eval.

(** ** The table of binomial coefficients *)
Section Table.
Context (MAXB : nat) (HM : 1 <= MAXB <= 68).
Lemma choose_release_ub n i : MAXB <= n -> choose_release MAXB n i = UB.
Proof using HM.
  intros Hn. unfold choose_release. destruct (calculate_table_ok MAXB HM) as (t & -> & HL & _). cbn [bind].
  unfold get. rewrite (proj2 (nth_error_None t _)); [reflexivity|]. rewrite HL, tri_eq. pose proof (tri_mono MAXB n Hn). lia.
Qed.
Context {T : Type} {o : SOps T} {F : SField T}.
Lemma Bernstein_release_ub p (x : T) : MAXB <= p -> BernsteinEvaluate_release MAXB p x = UB.
Proof using HM.
  intros Hp. unfold BernsteinEvaluate_release. rewrite Nat.add_1_r. cbn [for_up]. rewrite choose_release_ub by auto. reflexivity.
Qed.
Lemma Bernstein_release_ok p (x : T) : p < MAXB -> is_ok (BernsteinEvaluate_release MAXB p x).
Proof using HM F.
  intros Hp. pose proof (BernsteinEvaluate_ok MAXB ltac:(lia) p x Hp) as E. exists (map (fun j => bernstein p j x) (seq 0 (Datatypes.S p))).
  rewrite (sim_BernsteinEvaluate MAXB T o p x); [exact E|]. rewrite E. discriminate.
Qed.
Lemma BernsteinDerivative_release_ub p (x : T) k : k <= p -> MAXB <= p - k \/ MAXB <= k -> BernsteinEvaluateDerivative_release MAXB p x k = UB.
Proof using HM F.
  intros Hk Hb. unfold BernsteinEvaluateDerivative_release. rewrite (proj2 (Nat.ltb_ge _ _)) by lia.
  destruct (Nat.eqb_spec k 0) as [->|Hne]; [apply Bernstein_release_ub; lia|].
  destruct (le_lt_dec MAXB (p - k)) as [Hle|Hlt]; [rewrite Bernstein_release_ub by auto; reflexivity|].
  destruct (Bernstein_release_ok (p - k) x Hlt) as (b & ->). cbn [bind]. 
  assert (E : forall n lo v, is_ok (for_up lo n (fun j (v : T) => Ok (smul v (sofnat (p - j)))) v)).
  { induction n; intros lo v; cbn [for_up bind]; [eexists; reflexivity|]. apply IHn. }
  destruct (E k 0 s1) as (y & ->). cbn [bind]. rewrite Nat.add_1_r. cbn [for_up].
  replace (Z.to_nat _) with 0.
  - cbn [Nat.min Nat.sub for_up]. rewrite choose_release_ub by lia. reflexivity.
  - rewrite (i32_u64_small MAXB) by lia. lia.
Qed.
Context {V : Type} {ov : VOps T V}.
Lemma BasisFunctions_release_ub (s : spline V) (xs : list T) : length xs = length (degrees s) -> Exists (fun p => MAXB <= p) (degrees s) ->
  BasisFunctions_release MAXB s xs = UB.
Proof using HM F.
  intros HX HE. unfold BasisFunctions_release, BasisFunctionContributions_release.
  rewrite (for_up_ub (fun l : list (list T) => length l = length (degrees s)) (fun k => nth k (degrees s) 0 <? MAXB)); [reflexivity| | |].
  - intros k l Hk HL. rewrite (get_ok 0) by lia. cbn [bind]. rewrite (get_ok s0) by lia. cbn [bind]. split; intros Hb.
    + apply Nat.ltb_lt in Hb. destruct (Bernstein_release_ok _ (nth k xs s0) Hb) as (b & ->). cbn [bind]. unfold set.
      rewrite (proj2 (Nat.ltb_lt _ _)) by lia. eexists. split; [reflexivity|]. rewrite length_upd. exact HL.
    + apply Nat.ltb_ge in Hb. rewrite Bernstein_release_ub by auto. reflexivity.
  - apply repeat_length.
  - apply Exists_nth in HE. destruct HE as (k & d & Hk & H). exists k. split; [lia|]. apply Nat.ltb_ge. rewrite (nth_indep _ 0 d) by auto. exact H.
Qed.
Lemma ForwardEvaluate_release_ub (s : spline V) (xs : list T) : length xs = length (degrees s) -> Exists (fun p => MAXB <= p) (degrees s) ->
  ForwardEvaluate_release MAXB s xs = UB.
Proof using HM F. intros HX HE. unfold ForwardEvaluate_release. rewrite BasisFunctions_release_ub by auto. reflexivity. Qed.
End Table.

(** ** Base64 *)
Lemma get_firstn {A} (l : list A) n i : i < n -> get (firstn n l) i = get l i.
Proof. unfold get. revert n i. induction l; intros [|n] [|i] H; cbn; try lia; auto. apply IHl. lia. Qed.
Lemma decode_group_cut table s g out : g < length s / 4 -> decode_group table (firstn (4 * (length s / 4)) s) g out = decode_group table s g out.
Proof.
  intros Hg. assert (HL : 4 * (length s / 4) <= length s) by (apply Nat.mul_div_le; lia). unfold decode_group.
  assert (E : forall i, i < 4 -> get (firstn (4 * (length s / 4)) s) (g * 4 + i) = get s (g * 4 + i)).
  { intros i Hi. apply get_firstn. lia. }
  cbn [mapM]. rewrite !E by lia. reflexivity.
Qed.
Lemma Decode_release_cut sz s : Decode_release sz s = Decode sz (firstn (4 * (length s / 4)) s).
Proof.
  assert (HL : 4 * (length s / 4) <= length s) by (apply Nat.mul_div_le; lia).
  assert (Hf : length (firstn (4 * (length s / 4)) s) = 4 * (length s / 4)) by (rewrite firstn_length; lia).
  unfold Decode, Decode_release. rewrite Hf. rewrite (Nat.mul_comm 4), Nat.mod_mul, Nat.div_mul by lia. cbn [Nat.eqb assert_ bind].
  destruct ReverseCharEncodeTable; cbn [bind]; try reflexivity. rewrite (Nat.mul_comm _ 4).
  rewrite (for_up_ext (decode_group a (firstn (4 * (length s / 4)) s)) (decode_group a s)); [reflexivity|].
  intros g x Hg. apply decode_group_cut. lia.
Qed.

(** ** Algorithmic differentiation *)
Section AD.
Context {S : Type} {os : ADScalar S}.
Definition cut_to (a b : adt S) : adt S := mkADT (ad_v b) (firstn (length (ad_d a)) (ad_d b)).
Lemma each2_cut (f : S -> S -> res S) d e : each2 f d e = each2 f d (firstn (length d) e).
Proof.
  unfold each2. apply for_up_ext. intros i x Hi. replace (get (firstn (length d) e) i) with (get e i); [reflexivity|].
  symmetry. apply get_firstn. lia.
Qed.
Lemma each2_short (f : S -> S -> res S) d e : (forall x z, is_ok (f x z)) -> length e < length d -> each2 f d e = UB.
Proof.
  intros Hf HL. unfold each2. apply (for_up_ub (fun l => length l = length d) (fun i => i <? length e)).
  - intros i l Hi Hl. destruct (nth_error l i) as [x|] eqn:Ex; [|apply nth_error_None in Ex; lia]. unfold get. rewrite Ex. cbn [bind]. split; intros Hb.
    + apply Nat.ltb_lt in Hb. destruct (nth_error e i) as [z|] eqn:Ez; [|apply nth_error_None in Ez; lia]. cbn [bind].
      destruct (Hf x z) as (y & ->). cbn [bind]. unfold set. rewrite (proj2 (Nat.ltb_lt _ _)) by lia. eexists. split; [reflexivity|]. now rewrite length_upd.
    + apply Nat.ltb_ge in Hb. rewrite (proj2 (nth_error_None e i)) by lia. reflexivity.
  - reflexivity.
  - exists (length e). split; [lia|]. apply Nat.ltb_irrefl.
Qed.
Lemma cut_length (a b : adt S) : length (ad_d a) <= length (ad_d b) -> length (ad_d (cut_to a b)) = length (ad_d a).
Proof. intros H. cbn. rewrite firstn_length. lia. Qed.
Lemma same_number_cut (a b : adt S) : length (ad_d a) <= length (ad_d b) -> same_number a (cut_to a b) = Ok tt.
Proof. intros H. unfold same_number. rewrite cut_length, Nat.eqb_refl by auto. reflexivity. Qed.
Lemma AD_cut (a b : adt S) : length (ad_d a) <= length (ad_d b) ->
  AD_add_release a b = AD_add a (cut_to a b) /\ AD_sub_release a b = AD_sub a (cut_to a b) /\
  AD_mul_release a b = AD_mul a (cut_to a b) /\ AD_div_release a b = AD_div a (cut_to a b).
Proof.
  intros H. unfold AD_add_release, AD_add, AD_add_assign_release, AD_add_assign, AD_sub_release, AD_sub, AD_sub_assign,
    AD_mul_release, AD_mul, AD_mul_assign_release, AD_mul_assign, AD_div_release, AD_div, AD_div_assign_release, AD_div_assign, same_number_release.
  rewrite same_number_cut by auto. cbn [bind ad_v ad_d cut_to]. split; [|split; [|split]]; try (destruct (a_mul (ad_v b) (ad_v b)) as [sq| | | | |]; try reflexivity; cbn [bind]; destruct (a_div_l 1%R sq); try reflexivity; cbn [bind]);
    match goal with |- ?l = _ => match l with context [each2 ?f ?d ?e] => rewrite (each2_cut f d e) end end; reflexivity.
Qed.
Lemma AD_input_release_ub n (x : S) k : n <= k -> AD_input_release n x k = UB.
Proof.
  intros H. unfold AD_input_release. rewrite repeat_length. unfold set. rewrite repeat_length, (proj2 (Nat.ltb_ge _ _)) by auto. reflexivity.
Qed.
End AD.
Local Open Scope R_scope.
Lemma AD_short (a b : adt R) : (length (ad_d b) < length (ad_d a))%nat ->
  AD_add_release a b = UB /\ AD_sub_release a b = UB /\ AD_mul_release a b = UB /\ (ad_v b <> 0 -> AD_div_release a b = UB).
Proof.
  intros H. unfold AD_add_release, AD_add_assign_release, AD_sub_release, AD_sub_assign, AD_mul_release, AD_mul_assign_release, AD_div_release, AD_div_assign_release, same_number_release.
  cbn [bind]. split; [|split; [|split]].
  - cbn [a_add ADScalar_R bind]. rewrite each2_short; auto. intros x z. eexists; reflexivity.
  - cbn [a_sub ADScalar_R bind]. rewrite each2_short; auto. intros x z. eexists; reflexivity.
  - rewrite each2_short; auto. intros x z. eexists; reflexivity.
  - intros Hv. cbn [a_mul ADScalar_R bind]. cbn [a_div_l]. rewrite fdiv_ok by (apply Rmult_integral_contrapositive; auto). cbn [bind].
    rewrite each2_short; auto. intros x z. eexists; reflexivity.
Qed.
