(** Outcomes, checked arrays and loops used by the model.

    Nothing in this file is specific to bezman: it fixes how the C++ machine
    behaviour (exceptions, assertions, undefined behaviour, non-termination,
    division by zero) is represented. *)
From Coq Require Import Arith Lia List ZArith NArith Bool.
Import ListNotations.

(** Outcome of a modelled C++ call. *)
Inductive res (A : Type) : Type :=
| Ok (a : A)        (* normal return *)
| Throw             (* a C++ exception left the function *)
| AssertFail        (* an [assert] failed (debug builds) *)
| UB                (* out-of-range access or other undefined behaviour *)
| NonFinite         (* a division by a zero scalar was executed *)
| Diverge.          (* loop fuel exhausted *)
Arguments Ok {A} a.
Arguments Throw {A}.
Arguments AssertFail {A}.
Arguments UB {A}.
Arguments NonFinite {A}.
Arguments Diverge {A}.

Definition bind {A B} (m : res A) (k : A -> res B) : res B :=
  match m with
  | Ok a => k a
  | Throw => Throw
  | AssertFail => AssertFail
  | UB => UB
  | NonFinite => NonFinite
  | Diverge => Diverge
  end.

Declare Scope res_scope.
Delimit Scope res_scope with res.
Notation "'do' x <- m ; k" := (bind m (fun x => k))
  (at level 200, x name, m at level 100, k at level 200, right associativity)
  : res_scope.
Notation "'do' ' p <- m ; k" := (bind m (fun p => k))
  (at level 200, p pattern, m at level 100, k at level 200, right associativity)
  : res_scope.
Open Scope res_scope.

Definition is_ok {A} (m : res A) : Prop := exists a, m = Ok a.

(** [assert(b)] *)
Definition assert_ (b : bool) : res unit := if b then Ok tt else AssertFail.

(** Checked element access [v[i]]. *)
Definition get {A} (l : list A) (i : nat) : res A :=
  match nth_error l i with Some a => Ok a | None => UB end.

Fixpoint upd_list {A} (l : list A) (i : nat) (x : A) : list A :=
  match l, i with
  | [], _ => []
  | _ :: t, O => x :: t
  | h :: t, S i' => h :: upd_list t i' x
  end.

(** Checked element write [v[i] = x]. *)
Definition set {A} (l : list A) (i : nat) (x : A) : res (list A) :=
  if i <? length l then Ok (upd_list l i x) else UB.

(** [v.resize(n)]: shortens or pads with the value-initialised element [d]. *)
Definition resize {A} (d : A) (l : list A) (n : nat) : list A :=
  firstn n l ++ repeat d (n - length l).

(** [for (i = lo; i < lo + n; i++) body] *)
Fixpoint for_up {A} (lo n : nat) (body : nat -> A -> res A) (a : A) : res A :=
  match n with
  | O => Ok a
  | S n' => do a' <- body lo a; for_up (S lo) n' body a'
  end.

(** [for (i = n - 1; i >= 0; i--) body] *)
Fixpoint for_down {A} (n : nat) (body : nat -> A -> res A) (a : A) : res A :=
  match n with
  | O => Ok a
  | S n' => do a' <- body n' a; for_down n' body a'
  end.

(** [while (cond) body], explicit fuel. *)
Fixpoint while_ {A} (fuel : nat) (cond : A -> bool) (body : A -> res A) (a : A)
  : res A :=
  match fuel with
  | O => Diverge
  | S f => if cond a then do a' <- body a; while_ f cond body a' else Ok a
  end.

(** Monadic map over a list, left to right. *)
Fixpoint mapM {A B} (f : A -> res B) (l : list A) : res (list B) :=
  match l with
  | [] => Ok []
  | a :: t => do b <- f a; do bs <- mapM f t; Ok (b :: bs)
  end.

(** 32-bit conversions used by the source ([unsigned int] / [int]). *)
Definition u32 (z : Z) : Z := (z mod 2 ^ 32)%Z.
Definition i32 (z : Z) : Z := ((z + 2 ^ 31) mod 2 ^ 32 - 2 ^ 31)%Z.
(** [std::size_t] wrap-around (64 bit). *)
Definition u64 (z : Z) : Z := (z mod 2 ^ 64)%Z.

(* ---------------------------------------------------------------------- *)
(** * Reasoning principles *)

Lemma bind_ok {A B} (m : res A) (k : A -> res B) (b : B) :
  bind m k = Ok b -> exists a, m = Ok a /\ k a = Ok b.
Proof. destruct m; simpl; intros; try discriminate; eauto. Qed.

Lemma bind_assoc {A B C} (m : res A) (k : A -> res B) (h : B -> res C) :
  bind (bind m k) h = bind m (fun a => bind (k a) h).
Proof. destruct m; reflexivity. Qed.

Lemma bind_Ok {A B} (a : A) (k : A -> res B) : bind (Ok a) k = k a.
Proof. reflexivity. Qed.

Lemma bind_ext {A B} (m : res A) (k k' : A -> res B) :
  (forall a, m = Ok a -> k a = k' a) -> bind m k = bind m k'.
Proof. destruct m; simpl; auto. Qed.

Lemma length_upd {A} (l : list A) i x : length (upd_list l i x) = length l.
Proof. revert i; induction l; destruct i; simpl; auto. Qed.

Lemma nth_upd {A} (d : A) (l : list A) i j x :
  i < length l ->
  nth j (upd_list l i x) d = if j =? i then x else nth j l d.
Proof.
  revert i j; induction l; simpl; intros i j Hi; [lia|].
  destruct i, j; simpl; auto. apply IHl; lia.
Qed.

Lemma nth_upd_same {A} (d : A) (l : list A) i x :
  i < length l -> nth i (upd_list l i x) d = x.
Proof. intros; rewrite nth_upd, Nat.eqb_refl; auto. Qed.

Lemma nth_upd_other {A} (d : A) (l : list A) i j x :
  j <> i -> nth j (upd_list l i x) d = nth j l d.
Proof.
  revert i j; induction l; simpl; intros i j Hij; [destruct j; auto|].
  destruct i, j; simpl; auto; try congruence.
Qed.

Lemma get_ok {A} (d : A) (l : list A) i :
  i < length l -> get l i = Ok (nth i l d).
Proof.
  intros H. unfold get. rewrite (nth_error_nth' l d H). reflexivity.
Qed.

Lemma get_ub {A} (l : list A) i : length l <= i -> get l i = UB.
Proof. intros H. unfold get. rewrite (proj2 (nth_error_None l i) H). reflexivity. Qed.

Lemma get_inv {A} (d : A) (l : list A) i a :
  get l i = Ok a -> i < length l /\ nth i l d = a.
Proof.
  unfold get. destruct (nth_error l i) eqn:E; [|discriminate].
  injection 1 as <-. split.
  - apply nth_error_Some. congruence.
  - apply nth_error_nth; auto.
Qed.

Lemma set_ok {A} (l : list A) i x :
  i < length l -> set l i x = Ok (upd_list l i x).
Proof. intros H. unfold set. apply Nat.ltb_lt in H. now rewrite H. Qed.

Lemma set_inv {A} (l l' : list A) i x :
  set l i x = Ok l' -> i < length l /\ l' = upd_list l i x.
Proof.
  unfold set. destruct (i <? length l) eqn:E; [|discriminate].
  apply Nat.ltb_lt in E. injection 1 as <-. auto.
Qed.

Lemma list_ext {A} (d : A) (l l' : list A) :
  length l = length l' ->
  (forall i, i < length l -> nth i l d = nth i l' d) -> l = l'.
Proof. intros. eapply nth_ext; eauto. Qed.

Lemma length_resize {A} (d : A) l n : length (resize d l n) = n.
Proof.
  unfold resize. rewrite app_length, repeat_length.
  destruct (Nat.le_gt_cases n (length l)).
  - rewrite firstn_length_le; lia.
  - rewrite firstn_all2; lia.
Qed.

Lemma nth_repeat_lt {A} (x d : A) n i : i < n -> nth i (repeat x n) d = x.
Proof. revert i; induction n; simpl; intros; [lia|]. destruct i; auto. apply IHn; lia. Qed.

Lemma nth_firstn_lt {A} (d : A) l n i : i < n -> nth i (firstn n l) d = nth i l d.
Proof.
  revert l i; induction n; simpl; intros; [lia|].
  destruct l; [destruct i; auto|]. destruct i; simpl; auto. apply IHn; lia.
Qed.

Lemma nth_resize {A} (d e : A) l n i :
  i < n -> i < length l -> nth i (resize d l n) e = nth i l e.
Proof.
  intros. unfold resize. rewrite app_nth1.
  - apply nth_firstn_lt; auto.
  - rewrite firstn_length. lia.
Qed.

Lemma for_up_inv {A} (I : nat -> A -> Prop) (body : nat -> A -> res A) n lo a :
  I lo a ->
  (forall i a, lo <= i < lo + n -> I i a ->
     exists a', body i a = Ok a' /\ I (S i) a') ->
  exists a', for_up lo n body a = Ok a' /\ I (lo + n) a'.
Proof.
  revert lo a; induction n; intros lo a H0 Hs; simpl.
  - exists a; rewrite Nat.add_0_r; auto.
  - destruct (Hs lo a) as (a1 & E & H1); [lia|auto|].
    rewrite E; simpl.
    replace (lo + S n) with (S lo + n) by lia.
    apply IHn; auto. intros; apply Hs; auto; lia.
Qed.

Lemma for_down_inv {A} (I : nat -> A -> Prop) (body : nat -> A -> res A) n a :
  I n a ->
  (forall i a, i < n -> I (S i) a ->
     exists a', body i a = Ok a' /\ I i a') ->
  exists a', for_down n body a = Ok a' /\ I 0 a'.
Proof.
  revert a; induction n; intros a H0 Hs; simpl; eauto.
  destruct (Hs n a) as (a1 & E & H1); [lia|auto|].
  rewrite E; simpl. apply IHn; auto.
Qed.

Lemma for_up_ext {A} (b1 b2 : nat -> A -> res A) n lo a :
  (forall i a, lo <= i < lo + n -> b1 i a = b2 i a) ->
  for_up lo n b1 a = for_up lo n b2 a.
Proof.
  revert lo a; induction n; simpl; intros; auto.
  rewrite H by lia. destruct (b2 lo a); simpl; auto. apply IHn; intros; apply H; lia.
Qed.

Lemma for_up_S {A} (body : nat -> A -> res A) n lo a :
  for_up lo (S n) body a = do a' <- for_up lo n body a; body (lo + n) a'.
Proof.
  revert lo a; induction n; intros.
  - simpl. rewrite Nat.add_0_r. destruct (body lo a); reflexivity.
  - change (for_up lo (S (S n)) body a) with
      (do a' <- body lo a; for_up (S lo) (S n) body a').
    change (for_up lo (S n) body a) with
      (do a' <- body lo a; for_up (S lo) n body a').
    rewrite bind_assoc. apply bind_ext. intros a' _.
    rewrite IHn. replace (S lo + n) with (lo + S n) by lia. reflexivity.
Qed.

(** The fuel of a terminating loop may be increased. *)
Lemma while_mono {A} (cond : A -> bool) body f f' (a b : A) :
  while_ f cond body a = Ok b -> f <= f' -> while_ f' cond body a = Ok b.
Proof.
  revert f' a; induction f; simpl; intros f' a H Hle; [discriminate|].
  destruct f' as [|f']; [lia|]. simpl. destruct (cond a); auto.
  destruct (body a); simpl in *; try discriminate. apply IHf; auto; lia.
Qed.

Lemma while_inv {A} (I : A -> Prop) (m : A -> nat) (cond : A -> bool) body f a :
  m a < f -> I a ->
  (forall a, I a -> cond a = true ->
     exists a', body a = Ok a' /\ I a' /\ m a' < m a) ->
  exists a', while_ f cond body a = Ok a' /\ I a' /\ cond a' = false.
Proof.
  revert a; induction f; intros a Hm HI Hs; [lia|].
  simpl. destruct (cond a) eqn:E; eauto.
  destruct (Hs a HI E) as (a1 & -> & H1 & H2). simpl. apply IHf; auto; lia.
Qed.

Lemma mapM_ok {A B} (f : A -> res B) (g : A -> B) l :
  (forall a, In a l -> f a = Ok (g a)) -> mapM f l = Ok (map g l).
Proof.
  induction l; simpl; intros H; auto.
  rewrite H by auto. simpl. rewrite IHl by auto. reflexivity.
Qed.

Lemma u32_small z : (0 <= z < 2 ^ 32)%Z -> u32 z = z.
Proof. intros. apply Z.mod_small; auto. Qed.

Lemma i32_small z : (- 2 ^ 31 <= z < 2 ^ 31)%Z -> i32 z = z.
Proof. intros. unfold i32. rewrite Z.mod_small; lia. Qed.

Lemma nth_map_seq {A} (f : nat -> A) n i d : i < n -> nth i (map f (seq 0 n)) d = f i.
Proof.
  intros. rewrite (nth_indep _ d (f 0)) by (rewrite map_length, seq_length; lia).
  rewrite (map_nth f). rewrite seq_nth by lia. reflexivity.
Qed.

Lemma upd_split {A} (x : A) l k :
  k < length l -> upd_list l k x = firstn k l ++ x :: skipn (S k) l.
Proof.
  revert l; induction k; destruct l; simpl; intros; try lia; auto. f_equal. apply IHk. lia.
Qed.
